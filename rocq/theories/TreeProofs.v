(* The tree of reductions between the instances of the vector (reduce_copies):
   ownership of positions, what the owners know, and the values. *)
From Verif Require Import Base BarrierModel NodeModel SyncProofs SyncItems.
Local Open Scope nat_scope.

(* the part [k] of [f] of a piece: size and offset (memory_step) *)
Definition csplit (ts size : Z) (f k : nat) : Z * Z :=
  (let zf := Z.of_nat f in
   let zk := Z.of_nat k in
   if 64 <=? Z.quot size zf then
     let sl := Z.quot (Z.quot size ts) zf * ts in
     let rest := Z.rem (Z.quot size ts) zf in
     if zk <? rest then (sl + ts, zk * sl + zk * ts) else (sl, zk * sl + rest * ts)
   else ((if (k =? 0)%nat then size else 0), 0))%Z.

Section Split.
  Context (ts size : Z) (f : nat).
  Hypothesis ts_pos : (0 < ts)%Z.
  Hypothesis size_nn : (0 <= size)%Z.
  Hypothesis size_ts : exists q, (size = q * ts)%Z.
  Hypothesis f_pos : 0 < f.

  Local Open Scope Z_scope.

  (* in units of elements *)
  Lemma csplit_elems : exists q, size = q * ts /\ 0 <= q /\
    forall k, csplit ts size f k =
      if 64 <=? Z.quot size (Z.of_nat f) then
        if Z.of_nat k <? q mod Z.of_nat f
        then ((q / Z.of_nat f + 1) * ts, Z.of_nat k * (q / Z.of_nat f + 1) * ts)
        else (q / Z.of_nat f * ts, (Z.of_nat k * (q / Z.of_nat f) + q mod Z.of_nat f) * ts)
      else ((if (k =? 0)%nat then size else 0), 0).
  Proof.
    destruct size_ts as (q & E). exists q.
    assert (0 <= q) by nia. split; [auto|]. split; [auto|]. intros k. unfold csplit.
    assert (Eq : Z.quot size ts = q) by (rewrite E; apply Z.quot_mul; lia).
    rewrite Eq. rewrite (Z.quot_div_nonneg q) by lia. rewrite (Z.rem_mod_nonneg q) by lia.
    destruct (64 <=? _); auto. destruct (_ <? _); f_equal; ring.
  Qed.

  Lemma csplit_in k : (k < f)%nat ->
    0 <= fst (csplit ts size f k) /\ 0 <= snd (csplit ts size f k) /\
    snd (csplit ts size f k) + fst (csplit ts size f k) <= size /\
    exists q, fst (csplit ts size f k) = q * ts.
  Proof.
    intros Hk. destruct csplit_elems as (q & E & Hq & C). rewrite C.
    set (zf := Z.of_nat f) in *. assert (0 < zf) by lia.
    pose proof (Z.div_mod q zf ltac:(lia)) as DM. pose proof (Z.mod_pos_bound q zf ltac:(lia)) as MB.
    pose proof (Z.div_pos q zf Hq ltac:(lia)) as DP.
    assert (Hk' : 0 <= Z.of_nat k < zf) by lia. revert Hk' DM MB DP.
    generalize (q / zf) (q mod zf) (Z.of_nat k). intros a b zk Hk' DM MB DP.
    destruct (64 <=? _).
    - destruct (Z.ltb_spec zk b); cbn [fst snd].
      + assert (zk * (a + 1) + (a + 1) <= q) by nia. repeat split; try nia. eexists; reflexivity.
      + assert (zk * a + b + a <= q) by nia. repeat split; try nia. eexists; reflexivity.
    - destruct (k =? 0)%nat; cbn [fst snd]; repeat split; try lia.
      + exists q. lia.
      + exists 0. lia.
  Qed.

  Lemma csplit_cover x : 0 <= x < size ->
    exists k, (k < f)%nat /\ snd (csplit ts size f k) <= x < snd (csplit ts size f k) + fst (csplit ts size f k).
  Proof.
    intros Hx. destruct csplit_elems as (q & E & Hq & C).
    assert (R : exists k, (k < f)%nat /\
       let r := (if 64 <=? Z.quot size (Z.of_nat f) then
        if Z.of_nat k <? q mod Z.of_nat f
        then ((q / Z.of_nat f + 1) * ts, Z.of_nat k * (q / Z.of_nat f + 1) * ts)
        else (q / Z.of_nat f * ts, (Z.of_nat k * (q / Z.of_nat f) + q mod Z.of_nat f) * ts)
      else ((if (k =? 0)%nat then size else 0), 0)) in snd r <= x < snd r + fst r).
    { destruct (64 <=? _).
      2:{ exists O. split; [auto|simpl; lia]. }
      set (zf := Z.of_nat f) in *. assert (0 < zf) by lia.
      pose proof (Z.div_mod q zf ltac:(lia)) as DM. pose proof (Z.mod_pos_bound q zf ltac:(lia)) as MB.
      pose proof (Z.div_pos q zf Hq ltac:(lia)) as DP.
      revert DM MB DP. generalize (q / zf) (q mod zf). intros a b DM MB DP.
      (* the element of x *)
      set (y := x / ts). assert (Hy : y * ts <= x < (y + 1) * ts) by (subst y; pose proof (Z.div_mod x ts); nia).
      assert (Yq : 0 <= y < q) by nia. clearbody y.
      destruct (Z_lt_le_dec y (b * (a + 1))) as [L|L].
      - set (k := y / (a + 1)).
        assert (Hk : k * (a + 1) <= y < (k + 1) * (a + 1)) by (subst k; pose proof (Z.div_mod y (a + 1)); nia).
        clearbody k. assert (0 <= k < b) by nia.
        exists (Z.to_nat k). split; [lia|]. rewrite Z2Nat.id by lia.
        destruct (Z.ltb_spec k b); [|lia]. cbn [fst snd]. nia.
      - assert (0 < a) by nia.
        set (k := (y - b) / a).
        assert (Hk : k * a <= y - b < (k + 1) * a) by (subst k; pose proof (Z.div_mod (y - b) a); nia).
        clearbody k. assert (b <= k) by nia. assert (k < zf) by nia.
        exists (Z.to_nat k). split; [lia|]. rewrite Z2Nat.id by lia.
        destruct (Z.ltb_spec k b); [lia|]. cbn [fst snd]. nia. }
    destruct R as (k & Hk & R). exists k. split; auto. rewrite C. exact R.
  Qed.

  Lemma csplit_unique x k k' : (k < f)%nat -> (k' < f)%nat ->
    snd (csplit ts size f k) <= x < snd (csplit ts size f k) + fst (csplit ts size f k) ->
    snd (csplit ts size f k') <= x < snd (csplit ts size f k') + fst (csplit ts size f k') -> k = k'.
  Proof.
    intros Hk Hk'. destruct csplit_elems as (q & E & Hq & C). rewrite !C.
    destruct (64 <=? _).
    2:{ destruct (k =? 0)%nat eqn:A, (k' =? 0)%nat eqn:B; cbn [fst snd]; lia. }
    set (zf := Z.of_nat f) in *. assert (0 < zf) by lia.
    pose proof (Z.mod_pos_bound q zf ltac:(lia)) as MB.
    pose proof (Z.div_pos q zf Hq ltac:(lia)) as DP.
    revert MB DP. generalize (q / zf) (q mod zf). intros a b MB DP.
    assert (Hz : forall k k' : Z, 0 <= k -> 0 <= k' ->
      (let r := if k <? b then ((a + 1) * ts, k * (a + 1) * ts) else (a * ts, (k * a + b) * ts) in
       snd r <= x < snd r + fst r) ->
      (let r := if k' <? b then ((a + 1) * ts, k' * (a + 1) * ts) else (a * ts, (k' * a + b) * ts) in
       snd r <= x < snd r + fst r) -> k = k').
    { clear - ts_pos DP MB. intros k k' Hk Hk'.
      destruct (Z.ltb_spec k b), (Z.ltb_spec k' b); cbn [fst snd]; intros R R'.
      - assert (k * (a + 1) < (k' + 1) * (a + 1)) by nia. assert (k' * (a + 1) < (k + 1) * (a + 1)) by nia. nia.
      - exfalso. assert (k' * a + b < (k + 1) * (a + 1)) by nia. assert ((k + 1) * (a + 1) <= b * (a + 1)) by nia. nia.
      - exfalso. assert (k * a + b < (k' + 1) * (a + 1)) by nia. assert ((k' + 1) * (a + 1) <= b * (a + 1)) by nia. nia.
      - assert (k * a < (k' + 1) * a) by nia. assert (k' * a < (k + 1) * a) by nia. nia. }
    intros R R'. apply Nat2Z.inj. apply Hz; auto; lia.
  Qed.

  Lemma csplit_zero : 0 < size -> 0 < fst (csplit ts size f 0).
  Proof.
    intros Hs. destruct csplit_elems as (q & E & Hq & C). rewrite C.
    destruct (64 <=? _); [|simpl; lia].
    set (zf := Z.of_nat f) in *. assert (0 < zf) by lia.
    pose proof (Z.div_mod q zf ltac:(lia)) as DM. pose proof (Z.mod_pos_bound q zf ltac:(lia)) as MB.
    pose proof (Z.div_pos q zf Hq ltac:(lia)) as DP.
    revert DM MB DP. generalize (q / zf) (q mod zf). intros a b DM MB DP.
    assert (0 < q) by nia.
    destruct (Z.ltb_spec (Z.of_nat 0) b); cbn [fst snd]; nia.
  Qed.

  (* short pieces are not split *)
  Lemma csplit_short k : size < 128 -> (k < f)%nat -> fst (csplit ts size f k) <> 0 -> k = O.
  Proof.
    intros Hs Hk. unfold csplit. destruct (Z.leb_spec 64 (Z.quot size (Z.of_nat f))) as [L|L].
    - intros _. rewrite Z.quot_div_nonneg in L by lia.
      assert (f = 1%nat); [|lia].
      destruct f as [|[|f']]; auto; [lia|]. exfalso.
      assert (size / Z.of_nat (S (S f')) <= size / 2) by (apply Z.div_le_compat_l; lia).
      assert (size / 2 < 64) by (apply Z.div_lt_upper_bound; lia). lia.
    - destruct (k =? 0)%nat eqn:A; [lia|]. simpl. congruence.
  Qed.
End Split.

(* arithmetic of nested blocks *)
Lemma blk_unique w b b' i : 0 < w -> b * w <= i < (b + 1) * w -> b' * w <= i < (b' + 1) * w -> b = b'.
Proof.
  intros Hw B B'. assert (b < b' + 1) by (apply (Nat.mul_lt_mono_pos_r w); lia).
  assert (b' < b + 1) by (apply (Nat.mul_lt_mono_pos_r w); lia). lia.
Qed.
Lemma blk_sub w f b i : 0 < w -> b * (w * f) <= i < (b + 1) * (w * f) ->
  (i - b * (w * f)) / w < f /\
  (b * f + (i - b * (w * f)) / w) * w <= i < (b * f + (i - b * (w * f)) / w + 1) * w.
Proof.
  intros Hw B.
  pose proof (Nat.div_mod (i - b * (w * f)) w ltac:(lia)) as DM.
  pose proof (Nat.mod_upper_bound (i - b * (w * f)) w ltac:(lia)) as MB.
  split; [apply Nat.div_lt_upper_bound; lia|]. revert DM.
  generalize ((i - b * (w * f)) / w). intros k DM. lia.
Qed.
Lemma blk_lt f w q b : 0 < f -> 0 < w -> b * (f * w) < f * (q * w) -> (b + 1) * w <= q * w.
Proof.
  intros Hf Hw L. apply Nat.mul_le_mono_r.
  assert (b < q); [|lia]. apply (Nat.mul_lt_mono_pos_r (f * w)); [apply Nat.mul_pos_pos; auto|].
  replace (q * (f * w)) with (f * (q * w)) by ring. exact L.
Qed.
Lemma blk_real f w b i h : b * w <= i -> i * f < h -> b * (f * w) < h.
Proof.
  intros L R. assert (b * w * f <= i * f) by (apply Nat.mul_le_mono_r; auto).
  replace (b * (f * w)) with (b * w * f) by ring. lia.
Qed.
Lemma blk_real2 f w q b b' i d h : 0 < w -> b * (q * w) <= i -> i < (b' + 1) * w ->
  f * w * b' <= d -> d < h -> b * (f * (q * w)) < h.
Proof.
  intros Hw L L' B Hd. assert (b * q < b' + 1) by (apply (Nat.mul_lt_mono_pos_r w); lia).
  assert (f * w * (b * q) <= f * w * b') by (apply Nat.mul_le_mono_l; lia).
  replace (b * (f * (q * w))) with (f * w * (b * q)) by ring. lia.
Qed.
Lemma blk_src w f b i : i < f -> b * (w * f) <= b * (w * f) + i * w < (b + 1) * (w * f) \/ w = 0.
Proof.
  intros Hi. destruct w as [|w]; [auto|]. left.
  assert (i * S w < f * S w) by (apply Nat.mul_lt_mono_pos_r; lia). lia.
Qed.

Section Levels.
  Context (ts sz : Z) (f0 : nat) (fac : nat -> nat).
  Hypothesis ts_pos : (0 < ts)%Z.
  Hypothesis sz_nn : (0 <= sz)%Z.
  Hypothesis sz_ts : exists q, (sz = q * ts)%Z.
  Hypothesis f0_pos : 0 < f0.
  Hypothesis fac_pos : forall s, 0 < fac s.

  (* number of instances and number of cores of a block of level s *)
  Fixpoint H (s : nat) : nat := match s with O => 1 | S s' => H s' * fac s end.
  Definition D (s : nat) : nat := f0 * H s.

  Lemma H_pos s : 0 < H s.
  Proof using fac_pos. induction s; cbn [H]; [exact Nat.lt_0_1|]. apply Nat.mul_pos_pos; auto. Qed.
  Lemma D_pos s : 0 < D s.
  Proof using fac_pos f0_pos. apply Nat.mul_pos_pos; auto. apply H_pos. Qed.
  Lemma D_S s : D (S s) = D s * fac (S s).
  Proof using Type. unfold D. cbn [H]. apply Nat.mul_assoc. Qed.

  Lemma H_nest s t : s <= t -> exists q, H t = q * H s.
  Proof using Type.
    induction 1 as [|t Ht [q Eq]]; [exists 1; symmetry; apply Nat.mul_1_l|].
    exists (q * fac (S t)). cbn [H]. rewrite Eq. rewrite <- !Nat.mul_assoc. f_equal. apply Nat.mul_comm.
  Qed.

  (* size and offset of the piece of core y of a block of level s *)
  Fixpoint C (s y : nat) : Z * Z :=
    match s with
    | O => csplit ts sz f0 y
    | S s' => let p := C s' (y mod D s') in
              let q := csplit ts (fst p) (fac s) (y / D s') in
              (fst q, snd p + snd q)%Z
    end.

  Definition region (s y : nat) (x : Z) : Prop := (snd (C s y) <= x < snd (C s y) + fst (C s y))%Z.

  Lemma div_lt_D s y : y < D (S s) -> y / D s < fac (S s).
  Proof using fac_pos f0_pos.
    intros Hy. rewrite D_S in Hy. pose proof (D_pos s) as P. clear - Hy P.
    apply Nat.div_lt_upper_bound; lia.
  Qed.

  Lemma mod_lt_D s y : y mod D s < D s.
  Proof using fac_pos f0_pos. apply Nat.mod_upper_bound. pose proof (D_pos s) as P. clear - P. lia. Qed.

  Lemma C_in s : forall y, y < D s -> (0 <= fst (C s y) /\ 0 <= snd (C s y) /\ snd (C s y) + fst (C s y) <= sz)%Z /\
    exists q, (fst (C s y) = q * ts)%Z.
  Proof using ts_pos sz_nn sz_ts f0_pos fac_pos.
    induction s as [|s IH]; intros y Hy.
    - unfold D in Hy. simpl in Hy. pose proof (csplit_in ts sz f0 ts_pos sz_nn sz_ts f0_pos y ltac:(lia)). simpl. tauto.
    - cbn [C]. destruct (IH (y mod D s) (mod_lt_D s y)) as ((A1 & A2 & A3) & A4).
      pose proof (csplit_in ts (fst (C s (y mod D s))) (fac (S s)) ts_pos A1 A4 (fac_pos _) _ (div_lt_D s y Hy)) as B.
      cbn [fst snd]. split; [|tauto]. lia.
  Qed.

  Lemma region_sz s y x : y < D s -> region s y x -> (0 <= x < sz)%Z.
  Proof using ts_pos sz_nn sz_ts f0_pos fac_pos. intros Hy R. pose proof (C_in s y Hy). unfold region in R. lia. Qed.

  Lemma region_down s y x : y < D (S s) -> region (S s) y x -> region s (y mod D s) x.
  Proof using ts_pos sz_nn sz_ts f0_pos fac_pos.
    intros Hy R. unfold region in *. cbn [C] in R.
    destruct (C_in s (y mod D s) (mod_lt_D s y)) as ((A1 & A2 & A3) & A4).
    pose proof (csplit_in ts (fst (C s (y mod D s))) (fac (S s)) ts_pos A1 A4 (fac_pos _) _ (div_lt_D s y Hy)) as B.
    cbn [fst snd] in R. lia.
  Qed.

  Lemma region_cover s : forall x, (0 <= x < sz)%Z -> exists y, y < D s /\ region s y x.
  Proof using ts_pos sz_nn sz_ts f0_pos fac_pos.
    induction s as [|s IH]; intros x Hx.
    - destruct (csplit_cover ts sz f0 ts_pos sz_nn sz_ts f0_pos x Hx) as (k & Hk & R).
      exists k. split; [unfold D; simpl; lia|exact R].
    - destruct (IH x Hx) as (y0 & Hy0 & R0). unfold region in R0.
      destruct (C_in s y0 Hy0) as ((A1 & A2 & A3) & A4).
      destruct (csplit_cover ts (fst (C s y0)) (fac (S s)) ts_pos A1 A4 (fac_pos _) (x - snd (C s y0)) ltac:(lia))
        as (k & Hk & R).
      exists (k * D s + y0). rewrite D_S. split; [nia|].
      unfold region. cbn [C]. rewrite Nat.add_comm, Nat.mod_add by lia. rewrite Nat.mod_small by lia.
      rewrite Nat.div_add, Nat.div_small by lia. cbn [fst snd]. simpl (0 + k). lia.
  Qed.

  Lemma region_unique s : forall x y y', y < D s -> y' < D s -> region s y x -> region s y' x -> y = y'.
  Proof using ts_pos sz_nn sz_ts f0_pos fac_pos.
    induction s as [|s IH]; intros x y y' Hy Hy' R R'.
    - unfold D in Hy, Hy'. simpl in Hy, Hy'.
      eapply (csplit_unique ts sz f0 ts_pos sz_nn sz_ts f0_pos x); eauto; lia.
    - pose proof (region_down s y x Hy R) as R0. pose proof (region_down s y' x Hy' R') as R0'.
      pose proof (IH x _ _ (mod_lt_D s y) (mod_lt_D s y') R0 R0') as E.
      destruct (C_in s (y mod D s) (mod_lt_D s y)) as ((A1 & A2 & A3) & A4).
      assert (E2 : y / D s = y' / D s).
      { unfold region in R, R'. cbn [C fst snd] in R, R'. rewrite <- E in R'.
        apply (csplit_unique ts (fst (C s (y mod D s))) (fac (S s)) ts_pos A1 A4 (fac_pos _) (x - snd (C s (y mod D s))));
          [now apply div_lt_D|now apply div_lt_D|lia|lia]. }
      rewrite (Nat.div_mod y (D s)), (Nat.div_mod y' (D s)) by (pose proof (D_pos s); lia).
      congruence.
  Qed.

  Lemma C_zero s : (0 < sz)%Z -> (0 < fst (C s 0))%Z.
  Proof using ts_pos sz_nn sz_ts f0_pos fac_pos.
    intros Hs. induction s as [|s IH]; cbn [C fst].
    - apply csplit_zero; auto.
    - rewrite Nat.mod_0_l, Nat.div_0_l by (pose proof (D_pos s); lia).
      destruct (C_in s 0 (D_pos s)) as ((A1 & A2 & A3) & A4).
      apply csplit_zero; auto.
  Qed.

  (* the piece of the first core of a group is empty only if the piece that is
     divided among the group is *)
  Lemma C_first s y : y < D s -> (0 < fst (C s y))%Z -> (0 < fst (C (S s) y))%Z.
  Proof using ts_pos sz_nn sz_ts f0_pos fac_pos.
    intros Hy Hs. cbn [C fst]. rewrite Nat.mod_small, Nat.div_small by auto.
    destruct (C_in s y Hy) as ((A1 & A2 & A3) & A4). apply csplit_zero; auto.
  Qed.

  Lemma C_nonzero_down s y : y < D (S s) -> (fst (C (S s) y) <> 0)%Z -> (fst (C s (y mod D s)) <> 0)%Z.
  Proof using ts_pos sz_nn sz_ts f0_pos fac_pos.
    intros Hy N E. apply N.
    destruct (C_in s (y mod D s) (mod_lt_D s y)) as ((A1 & A2 & A3) & A4).
    pose proof (csplit_in ts (fst (C s (y mod D s))) (fac (S s)) ts_pos A1 A4 (fac_pos _) _ (div_lt_D s y Hy)) as B.
    cbn [C fst]. lia.
  Qed.

  Lemma C_short s : (sz < 128)%Z -> forall y, y < D s -> (fst (C s y) <> 0)%Z -> y = 0.
  Proof using ts_pos sz_nn sz_ts f0_pos fac_pos.
    intros Hs. induction s as [|s IH]; intros y Hy N.
    - unfold D in Hy. simpl in Hy. eapply (csplit_short ts sz f0); eauto. lia.
    - pose proof (C_nonzero_down s y Hy N) as N0. pose proof (IH _ (mod_lt_D s y) N0) as E.
      destruct (C_in s (y mod D s) (mod_lt_D s y)) as ((A1 & A2 & A3) & A4).
      cbn [C fst] in N.
      assert (y / D s = 0).
      { eapply (csplit_short ts (fst (C s (y mod D s))) (fac (S s))); eauto; [lia|now apply div_lt_D]. }
      rewrite (Nat.div_mod y (D s)) by (pose proof (D_pos s); lia). rewrite E, H0. lia.
  Qed.
End Levels.
