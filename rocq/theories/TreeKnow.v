(* The reduction tree of reduce_copies, embedded in a program of items: freedom
   from races, what every core knows at the end, and the result. *)
From Verif Require Import Base BarrierModel NodeModel SyncProofs SyncItems TreeProofs.
Local Open Scope nat_scope.
Local Ltac Zify.zify_post_hook ::= idtac.

Definition zseq (size : Z) : list Z := map Z.of_nat (seq 0 (Z.to_nat size)).

Lemma in_zseq size o : In o (zseq size) <-> (0 <= o < size)%Z.
Proof.
  unfold zseq. rewrite in_map_iff. split.
  - intros (i & <- & I). apply in_seq in I. lia.
  - intros Hx. exists (Z.to_nat o). split; [lia|]. apply in_seq. lia.
Qed.

Section Tree.
  Context (n h F P0 : nat) (len : nat -> nat) (ws : nat -> nat -> list nat) (acts : nat -> nat -> list act).
  Context (ts sz : Z) (f0 : nat) (fac : nat -> nat) (addr : nat -> Z -> Z).
  Hypothesis ts_pos : (0 < ts)%Z.
  Hypothesis sz_nn : (0 <= sz)%Z.
  Hypothesis sz_ts : exists q, (sz = q * ts)%Z.
  Hypothesis f0_pos : 0 < f0.
  Hypothesis fac_pos : forall s, 0 < fac s.

  Notation Hs := (H fac).
  Notation Ds := (D f0 fac).
  Notation Cs := (C ts sz f0 fac).
  Notation reg := (region ts sz f0 fac).

  Hypothesis F_pos : 0 < F.
  Hypothesis h_n : h <= n.
  Hypothesis h_D : h <= Ds (F - 1).

  Hypothesis addr_inj : forall i x i' x', (0 <= x < sz)%Z -> (0 <= x' < sz)%Z ->
    addr i x = addr i' x' -> i = i' /\ x = x'.

  Let M := P0 + F + 2.
  Notation kn := (knows (iprog ws acts M)).
  Notation cm := (cum len).

  Hypothesis ws_len : forall c i, c < n -> length (ws c i) = len i.
  Hypothesis ws_n : forall c i x, c < n -> In x (ws c i) -> x < n.

  Definition touches (c i : nat) (a : Z) : Prop :=
    exists k d s, In (k, d, s) (acts c i) /\ (a = d \/ s = Shm a).

  (* the items up to P0 *)
  Hypothesis pre_cells : forall c i a, c < n -> i <= P0 -> touches c i a ->
    exists inst x, a = addr inst x /\ (0 <= x < sz)%Z /\ (inst < Hs (F - 1) -> inst * f0 < h).
  Hypothesis pre_know : forall inst y x d i, inst * f0 + y < h -> y < f0 -> reg 0 y x ->
    d < n -> d <> inst * f0 + y -> i <= P0 -> touches d i (addr inst x) ->
    kn (inst * f0 + y) (cm (S P0)) d (cm (S i)).
  Hypothesis pre_race : forall c d i j k1 d1 s1 k2 d2 s2, c < n -> d < n -> c <> d ->
    i <= P0 -> j <= P0 -> In (k1, d1, s1) (acts c i) -> In (k2, d2, s2) (acts d j) ->
    clash k1 d1 s1 k2 d2 s2 -> kn d (cm (S j)) c (cm (S i)) \/ kn c (cm (S i)) d (cm (S j)).

  (* the items of the levels *)
  Definition level_acts (s c : nat) : list act :=
    let b := c / Ds (S s) in
    let '(size, off) := Cs (S s) (c mod Ds (S s)) in
    flat_map (fun i => map (fun o => (Reduce, addr (b * Hs (S s)) (off + o)%Z,
                                      Shm (addr (b * Hs (S s) + i * Hs s) (off + o)%Z))) (zseq size))
             (seq 1 (fac (S s) - 1)).

  Hypothesis acts_level : forall c s, c < n -> S s < F ->
    acts c (P0 + S s) = if c <? h then level_acts s c else [].
  Hypothesis acts_final : forall c i, c < n -> P0 + F <= i -> acts c i = [].

  Hypothesis own_real : forall s b y x, s < F -> b * Ds s < h -> y < Ds s -> reg s y x -> b * Ds s + y < h.

  (* the barrier of a group of level S s *)
  Hypothesis ws_level : forall s b y, S s < F -> y < Ds s -> b * Ds (S s) + y < h -> (fst (Cs s y) <> 0)%Z ->
    exists nb, 0 < nb /\ nb <= fac (S s) /\ clg nb <= len (P0 + S s) /\
      (forall k, k < fac (S s) -> (b * Ds (S s) + y + k * Ds s < h <-> k < nb)) /\
      forall t e, t < nb -> e < clg nb ->
        nth e (ws (b * Ds (S s) + y + t * Ds s) (P0 + S s)) 0 =
        b * Ds (S s) + y + ((t + 2 ^ e) mod nb) * Ds s.

  Lemma Dpos s : 0 < Ds s.
  Proof. now apply D_pos. Qed.

  Lemma modD c s : c mod Ds s < Ds s.
  Proof. apply Nat.mod_upper_bound. pose proof (Dpos s). lia. Qed.

  Lemma reg_sz s y x : y < Ds s -> reg s y x -> (0 <= x < sz)%Z.
  Proof. exact (region_sz ts sz f0 fac ts_pos sz_nn sz_ts f0_pos fac_pos s y x). Qed.

  Lemma in_level s c k d sr : In (k, d, sr) (level_acts s c) ->
    exists i x, k = Reduce /\ 1 <= i < fac (S s) /\ reg (S s) (c mod Ds (S s)) x /\
      d = addr (c / Ds (S s) * Hs (S s)) x /\ sr = Shm (addr (c / Ds (S s) * Hs (S s) + i * Hs s) x).
  Proof.
    unfold level_acts, region. destruct (Cs (S s) (c mod Ds (S s))) as (size & off). intros I.
    apply in_flat_map in I. destruct I as (i & Ii & I). apply in_seq in Ii.
    apply in_map_iff in I. destruct I as (o & E & Io). apply in_zseq in Io.
    inversion E; subst. exists i, (off + o)%Z. cbn [fst snd]. repeat split; auto; lia.
  Qed.

  Lemma touches_level c s a : c < n -> S s < F -> touches c (P0 + S s) a ->
    exists inst x, a = addr inst x /\ c < h /\ reg (S s) (c mod Ds (S s)) x /\
      c / Ds (S s) * Hs (S s) <= inst < (c / Ds (S s) + 1) * Hs (S s).
  Proof.
    intros Hc Hs' (k & d & sr & I & Ha). rewrite acts_level in I by auto.
    destruct (Nat.ltb_spec c h) as [L|L]; [|destruct I].
    destruct (in_level s c k d sr I) as (i & x & -> & Hi & R & -> & ->).
    assert (P : 0 < Hs s) by (now apply H_pos).
    assert (E : Hs (S s) = Hs s * fac (S s)) by reflexivity.
    destruct (blk_src (Hs s) (fac (S s)) (c / Ds (S s)) i ltac:(lia)) as [B|B]; [|lia].
    destruct Ha as [->|Ha].
    - exists (c / Ds (S s) * Hs (S s)), x.
      split; [reflexivity|]. split; [assumption|]. split; [assumption|]. rewrite E. lia.
    - inversion Ha; subst. exists (c / Ds (S s) * Hs (S s) + i * Hs s), x.
      split; [reflexivity|]. split; [assumption|]. split; [assumption|]. rewrite E. lia.
  Qed.

  (* every touched cell is a cell of an instance *)
  Lemma touches_cell c i a : c < n -> touches c i a -> exists inst x, a = addr inst x /\ (0 <= x < sz)%Z.
  Proof.
    intros Hc T. destruct (le_lt_dec i P0) as [L|L].
    - destruct (pre_cells c i a Hc L T) as (inst & x & E & X & _). eauto.
    - destruct (le_lt_dec (P0 + F) i) as [L'|L'].
      + destruct T as (k & d & s & I & _). rewrite acts_final in I by auto. destruct I.
      + assert (Es : exists s, i = P0 + S s /\ S s < F) by (exists (i - P0 - 1); lia).
        destruct Es as (s & -> & HsF).
        destruct (touches_level c s a Hc HsF T) as (inst & x & E & _ & R & _).
        exists inst, x. split; auto. exact (reg_sz _ _ _ (modD _ _) R).
  Qed.

  (* what the owner of position x of block b knows when it begins its actions
     of level s *)
  Lemma know s : s < F -> forall b y x, y < Ds s -> b * Ds s + y < h -> reg s y x ->
    forall d i inst, d < n -> d <> b * Ds s + y -> i <= P0 + s ->
      b * Hs s <= inst < (b + 1) * Hs s -> touches d i (addr inst x) ->
      kn (b * Ds s + y) (cm (S (P0 + s))) d (cm (S i)).
  Proof.
    induction s as [|s IH]; intros HF b y x Hy Hc R d i inst Hd Ne Hi Hin T.
    - assert (inst = b) by (simpl in Hin; lia). subst inst.
      unfold D in *. simpl in *. rewrite Nat.mul_1_r in *. rewrite Nat.add_0_r in *.
      eapply pre_know; eauto.
    - set (y0 := y mod Ds s). set (k := y / Ds s).
      pose proof (Dpos s) as DP.
      assert (Hy0 : y0 < Ds s) by (apply Nat.mod_upper_bound; lia).
      assert (Ey : y = k * Ds s + y0) by (unfold k, y0; rewrite (Nat.div_mod y (Ds s)) at 1 by lia; lia).
      assert (Hk : k < fac (S s)) by (now apply div_lt_D).
      pose proof (region_down ts sz f0 fac ts_pos sz_nn sz_ts f0_pos fac_pos s y x Hy R) as R0. fold y0 in R0.
      assert (X : (0 <= x < sz)%Z) by (exact (reg_sz _ _ _ Hy R)).
      assert (EH : Hs (S s) = Hs s * fac (S s)) by reflexivity.
      assert (ED : Ds (S s) = Ds s * fac (S s)) by (apply D_S).
      assert (DH : Ds s = f0 * Hs s) by reflexivity.
      assert (HP : 0 < Hs s) by (now apply H_pos).
      destruct (Nat.eq_dec i (P0 + S s)) as [->|Ni].
      + (* the same level: only the owner touches the position *)
        exfalso. destruct (touches_level d s _ Hd HF T) as (inst' & x' & E & Hdh & R' & Hin').
        assert (HmD : d mod Ds (S s) < Ds (S s)) by apply modD.
        assert (X' : (0 <= x' < sz)%Z) by (exact (reg_sz _ _ _ HmD R')).
        destruct (addr_inj _ _ _ _ X X' E) as (-> & ->).
        pose proof (region_unique ts sz f0 fac ts_pos sz_nn sz_ts f0_pos fac_pos (S s) x' _ _ Hy HmD R R') as Q.
        assert (Eb : d / Ds (S s) = b).
        { apply (blk_unique (Hs (S s)) _ _ inst'); auto. now apply H_pos. }
        apply Ne. rewrite (Nat.div_mod d (Ds (S s))) by (pose proof (Dpos (S s)); lia). rewrite Eb, <- Q. ring.
      + assert (Hi' : i <= P0 + s) by lia.
        (* the sub-block of the instance *)
        set (k1 := (inst - b * Hs (S s)) / Hs s).
        set (b1 := b * fac (S s) + k1).
        destruct (blk_sub (Hs s) (fac (S s)) b inst HP Hin) as (Hk1 & Hb1). change (k1 < fac (S s)) in Hk1. change (b1 * Hs s <= inst < (b1 + 1) * Hs s) in Hb1. clearbody k1.
        assert (Eu : b1 * Ds s + y0 = b * Ds (S s) + y0 + k1 * Ds s) by (unfold b1; rewrite ED; ring). clearbody b1.
        assert (Ec : b * Ds (S s) + y = b * Ds (S s) + y0 + k * Ds s) by (rewrite Ey; ring).
        (* the sub-block is real *)
        assert (Real : b1 * Ds s < h).
        { destruct (le_lt_dec i P0) as [L|L].
          - destruct (pre_cells d i _ Hd L T) as (inst' & x' & E & X' & Q).
            destruct (addr_inj _ _ _ _ X X' E) as (<- & <-).
            assert (Hlt : inst < Hs (F - 1)).
            { destruct (H_nest fac (S s) (F - 1) ltac:(clear - HF; lia)) as (q & Eq).
              assert (Hl : (b + 1) * Hs (S s) <= q * Hs (S s)).
              { apply (blk_lt f0); auto; [now apply H_pos|].
                apply Nat.lt_le_trans with h; [|unfold D in h_D; rewrite Eq in h_D; exact h_D].
                apply Nat.le_lt_trans with (b * Ds (S s) + y); auto. apply Nat.le_add_r. }
              rewrite Eq. exact (Nat.lt_le_trans _ _ _ (proj2 Hin) Hl). }
            rewrite DH. apply (blk_real _ _ _ inst); [exact (proj1 Hb1)|auto].
          - assert (Es : exists s', i = P0 + S s' /\ S s' <= s) by (exists (i - P0 - 1); clear - L Hi'; lia).
            destruct Es as (s' & -> & Ls).
            destruct (touches_level d s' _ Hd ltac:(clear - Ls HF; lia) T) as (inst' & x' & E & Hdh & R' & Hin').
            assert (HmD : d mod Ds (S s') < Ds (S s')) by apply modD.
            assert (X' : (0 <= x' < sz)%Z) by (exact (reg_sz _ _ _ HmD R')).
            destruct (addr_inj _ _ _ _ X X' E) as (<- & <-).
            destruct (H_nest fac (S s') s Ls) as (q & Eq).
            pose proof (Nat.mul_div_le d (Ds (S s')) (Nat.neq_sym _ _ (Nat.lt_neq _ _ (Dpos (S s'))))) as Ld.
            rewrite DH, Eq. rewrite Eq in Hb1.
            apply (blk_real2 f0 (Hs (S s')) q b1 (d / Ds (S s')) inst d h);
              [now apply H_pos|exact (proj1 Hb1)|exact (proj2 Hin')|exact Ld|exact Hdh]. }
        pose proof (own_real s b1 y0 x ltac:(clear - HF; lia) Real Hy0 R0) as Hu.
        assert (NZ : (fst (Cs s y0) <> 0)%Z) by (unfold region in R0; clear - R0; lia).
        assert (Hb : b * Ds (S s) + y0 < h) by (rewrite Eu in Hu; clear - Hu; lia).
        destruct (ws_level s b y0 HF Hy0 Hb NZ) as (nb & Nb & Nf & Lc & Rk & Wk).
        assert (K1 : k1 < nb) by (apply Rk; [exact Hk1|rewrite <- Eu; exact Hu]).
        assert (K : k < nb) by (apply Rk; [exact Hk|rewrite <- Ec; exact Hc]).
        destruct (disseminate n len ws acts ws_len ws_n M (fun t => b * Ds (S s) + y0 + t * Ds s) nb (P0 + S s)
                    ltac:(unfold M; clear - HF; lia) Nb
                    ltac:(intros t Ht; exact (Nat.lt_le_trans _ _ _ (proj2 (Rk t (Nat.lt_le_trans _ _ _ Ht Nf)) Ht) h_n)) Lc Wk k k1 K K1) as (D1 & D2).
        rewrite Ec. replace (P0 + S s) with (S (P0 + s)) in D1, D2 |- * by (clear; lia).
        destruct (Nat.eq_dec d (b1 * Ds s + y0)) as [->|Nd].
        * rewrite Eu. eapply k_down; [apply D2; rewrite <- Eu, <- Ec; auto|].
          apply cum_mono; auto. clear - Hi'; lia.
        * apply D1. rewrite <- Eu. eapply IH; eauto. clear - HF; lia.
  Qed.

  Lemma tree_race_free : race_free n (iprog ws acts M).
  Proof.
    (* the later of the two in a level *)
    assert (W : forall c d i j k1 d1 s1 k2 d2 s2, c < n -> d < n -> c <> d -> i <= j -> j < M -> P0 < j ->
       In (k1, d1, s1) (acts c i) -> In (k2, d2, s2) (acts d j) -> clash k1 d1 s1 k2 d2 s2 ->
       kn d (cm (S j)) c (cm (S i))).
    { intros c d i j k1 d1 s1 k2 d2 s2 Hc Hd Ne Hij Hj HP I1 I2 Cl.
      destruct (le_lt_dec (P0 + F) j) as [L|L]; [rewrite acts_final in I2 by auto; destruct I2|].
      assert (Es : exists s, j = P0 + S s /\ S s < F) by (exists (j - P0 - 1); lia).
      destruct Es as (s & -> & HsF).
      assert (A : exists a, touches c i a /\ touches d (P0 + S s) a).
      { destruct Cl as [<-|[->|E]].
        - exists d1. split; [exists k1, d1, s1|exists k2, d1, s2]; auto.
        - exists d1. split; [exists k1, d1, s1|exists k2, d2, (Shm d1)]; auto.
        - exists d2. split; [exists k1, d1, s1|exists k2, d2, s2]; auto. }
      destruct A as (a & T1 & T2).
      destruct (touches_level d s a Hd HsF T2) as (inst & x & -> & Hdh & R & Hin).
      pose proof (Dpos (S s)) as DP.
      assert (Ed : d = d / Ds (S s) * Ds (S s) + d mod Ds (S s))
        by (rewrite (Nat.div_mod d (Ds (S s))) at 1 by lia; lia).
      rewrite Ed. eapply know; eauto; try lia. }
    intros c d j k k1 d1 s1 k2 d2 s2 Hc Hd Ne I1 I2 Cl.
    destruct (in_segm_iprog n len ws acts ws_len ws_n M c j _ Hc I1) as (i & Hi & I1' & ->).
    destruct (in_segm_iprog n len ws acts ws_len ws_n M d k _ Hd I2) as (i' & Hi' & I2' & ->).
    destruct (le_lt_dec i P0) as [L1|L1], (le_lt_dec i' P0) as [L2|L2].
    - eapply pre_race; eauto.
    - left. apply (W c d i i' k1 d1 s1 k2 d2 s2); auto. lia.
    - right. apply (W d c i' i k2 d2 s2 k1 d1 s1); auto; [lia|]. unfold clash in *. intuition.
    - destruct (le_lt_dec i i') as [L|L].
      + left. apply (W c d i i' k1 d1 s1 k2 d2 s2); auto.
      + right. apply (W d c i' i k2 d2 s2 k1 d1 s1); auto; [lia|]. unfold clash in *. intuition.
  Qed.

  (* the final barrier *)
  Hypothesis fin : forall c o, c < n -> o < h -> (fst (Cs (F - 1) o) <> 0)%Z ->
    (forall d m, kn o (cm (P0 + F)) d m -> kn c (cm M) d m) /\
    (o <> c -> kn c (cm M) o (cm (P0 + F))).

  Lemma tree_final c x d j k dd s1 : c < n -> (0 <= x < sz)%Z -> 0 < h -> d < n -> d <> c ->
    In (k, dd, s1) (segm (iprog ws acts M d) j) -> dd = addr 0 x -> kn c (cm M) d j.
  Proof.
    intros Hc X Hh Hd Ne I ->.
    destruct (in_segm_iprog n len ws acts ws_len ws_n M d j _ Hd I) as (i & Hi & I' & ->).
    destruct (le_lt_dec (P0 + F) i) as [L|L]; [rewrite acts_final in I' by auto; destruct I'|].
    destruct (region_cover ts sz f0 fac ts_pos sz_nn sz_ts f0_pos fac_pos (F - 1) x X) as (y & Hy & R).
    pose proof (own_real (F - 1) 0 y x ltac:(lia) ltac:(lia) Hy R) as Ho. simpl in Ho.
    assert (NZ : (fst (Cs (F - 1) y) <> 0)%Z) by (unfold region in R; lia).
    destruct (fin c y Hc Ho NZ) as (F1 & F2).
    assert (T : touches d i (addr 0 x)) by (exists k, (addr 0 x), s1; auto).
    destruct (Nat.eq_dec d y) as [->|Nd].
    - eapply k_down; [apply F2; auto|]. apply cum_mono; auto; lia.
    - apply F1. replace (P0 + F) with (S (P0 + (F - 1))) by lia.
      change y with (0 * Ds (F - 1) + y). eapply know; eauto; try lia.
      pose proof (H_pos fac fac_pos (F - 1)). lia.
  Qed.

  (* whoever has worked on an instance is known to everyone at the end *)
  Lemma tree_full c d i inst x : c < n -> d < n -> d <> c -> 0 < h -> inst < Hs (F - 1) -> (0 <= x < sz)%Z ->
    i < P0 + F -> touches d i (addr inst x) -> kn c (cm M) d (cm (S i)).
  Proof.
    intros Hc Hd Ne Hh Hi X L T.
    destruct (region_cover ts sz f0 fac ts_pos sz_nn sz_ts f0_pos fac_pos (F - 1) x X) as (y & Hy & R).
    pose proof (own_real (F - 1) 0 y x ltac:(lia) ltac:(lia) Hy R) as Ho. simpl in Ho.
    assert (NZ : (fst (Cs (F - 1) y) <> 0)%Z) by (unfold region in R; lia).
    destruct (fin c y Hc Ho NZ) as (F1 & F2).
    destruct (Nat.eq_dec d y) as [->|Nd].
    - eapply k_down; [apply F2; auto|]. apply cum_mono; auto; lia.
    - apply F1. replace (P0 + F) with (S (P0 + (F - 1))) by lia.
      change y with (0 * Ds (F - 1) + y). eapply know; eauto; lia.
  Qed.

  (* instances without cores are not written *)
  Lemma tree_ghost c i k inst x s1 : c < n -> inst < Hs (F - 1) -> (0 <= x < sz)%Z ->
    In (k, addr inst x, s1) (acts c i) -> inst * f0 < h.
  Proof.
    intros Hc Hi X I. destruct (le_lt_dec i P0) as [L|L].
    - destruct (pre_cells c i (addr inst x) Hc L) as (inst' & x' & E & X' & Q); [exists k, (addr inst x), s1; auto|].
      apply addr_inj in E; auto. destruct E as (-> & _). auto.
    - destruct (le_lt_dec (P0 + F) i) as [L2|L2]; [rewrite acts_final in I by auto; destruct I|].
      assert (Es : exists s, i = P0 + S s /\ S s < F) by (exists (i - P0 - 1); lia).
      destruct Es as (s & -> & HsF). rewrite acts_level in I by auto.
      destruct (Nat.ltb_spec c h) as [Lh|Lh]; [|destruct I].
      destruct (in_level s c k _ s1 I) as (j & x' & _ & _ & R & E & _).
      apply addr_inj in E; auto; [|exact (reg_sz _ _ _ (modD _ _) R)]. destruct E as (-> & _).
      pose proof (Nat.mul_div_le c (Ds (S s)) ltac:(pose proof (Dpos (S s)); lia)) as Q.
      apply Nat.le_lt_trans with c; auto. etransitivity; [|exact Q]. apply Nat.eq_le_incl.
      change (Ds (S s)) with (f0 * Hs (S s)). ring.
  Qed.

  (* ---- values ---- *)
  Context {V : Type} (op : V -> V -> V) (e : V) (send : nat -> Z -> V).
  Hypothesis op_assoc : forall a b c, op a (op b c) = op (op a b) c.
  Hypothesis op_e_l : forall a, op e a = a.
  Hypothesis op_e_r : forall a, op a e = a.

  (* a list of reductions whose sources are not written *)
  Definition gather (l : list (nat * act)) (m : Z -> V) : Z -> V :=
    fold_left (fun m a => effect op send (fst a) (fst (fst (snd a))) (snd (fst (snd a))) (snd (snd a)) m) l m.

  Definition dst (a : nat * act) : Z := snd (fst (snd a)).

  Lemma gather_spec (srcv : nat * act -> V) : forall l m y,
    (forall a, In a l -> fst (fst (snd a)) = Reduce) ->
    (forall a x, In a l -> snd (snd a) = Shm x -> srcv a = m x) ->
    (forall a x, In a l -> snd (snd a) = Snd x -> srcv a = send (fst a) x) ->
    (forall a b x, In a l -> In b l -> snd (snd a) = Shm x -> x <> dst b) ->
    gather l m y = fold_left op (map srcv (filter (fun a => (dst a =? y)%Z) l)) (m y).
  Proof.
    induction l as [|a l IH]; intros m y HR HS HN HD; [reflexivity|].
    cbn [gather fold_left]. fold (gather l). rewrite IH.
    - cbn [filter]. unfold effect at 1. rewrite (HR a) by (simpl; auto). change (snd (fst (snd a))) with (dst a).
      assert (Ev : match snd (snd a) with Shm x => m x | Snd x => send (fst a) x end = srcv a).
      { destruct (snd (snd a)) eqn:E; symmetry; [eapply HS|eapply HN]; simpl; eauto. }
      rewrite Ev. destruct (Z.eqb_spec (dst a) y) as [<-|N].
      + cbn [map fold_left]. now rewrite upd_same.
      + now rewrite upd_other by auto.
    - intros; apply HR; simpl; auto.
    - intros b x Ib Eb. unfold effect. rewrite upd_other; [apply HS; simpl; auto|].
      apply (HD b a x); simpl; auto.
    - intros; apply HN; simpl; auto.
    - intros b b' x Ib Ib' Eb. apply (HD b b' x); simpl; auto.
  Qed.

  Lemma item_phase_gather i m :
    item_phase n acts op send i m = gather (flat_map (fun c => map (pair c) (acts c i)) (seq 0 n)) m.
  Proof.
    unfold item_phase, gather. generalize (seq 0 n). intros l. revert m.
    induction l as [|c l IH]; intros m; [reflexivity|].
    simpl flat_map. rewrite fold_left_app. cbn [fold_left]. rewrite IH. f_equal.
    unfold segment. generalize (acts c i). intros la. revert m. induction la as [|a la IHa]; intros m; [reflexivity|].
    cbn [map fold_left]. rewrite IHa. reflexivity.
  Qed.

  Lemma filter_flat_map {A B} (f : B -> bool) (g : A -> list B) l :
    filter f (flat_map g l) = flat_map (fun a => filter f (g a)) l.
  Proof. induction l as [|a l IH]; simpl; auto. now rewrite filter_app, IH. Qed.

  Lemma flat_map_single {A B} (g : A -> list B) (dec : forall x y : A, {x = y} + {x <> y}) l a :
    NoDup l -> In a l -> (forall b, In b l -> b <> a -> g b = []) -> flat_map g l = g a.
  Proof.
    induction 1 as [|b l Hb ND IH]; intros I Z; [destruct I|]. simpl.
    destruct (dec b a) as [->|Ne].
    - replace (flat_map g l) with (@nil B); [apply app_nil_r|]. symmetry.
      assert (Q : forall l', (forall b, In b l' -> g b = []) -> flat_map g l' = []).
      { induction l' as [|x l' IHl]; simpl; intros Q; auto. rewrite Q by auto. apply IHl. auto. }
      apply Q. intros b Ib. apply Z; [simpl; auto|]. intros ->. contradiction.
    - rewrite Z by (simpl; auto). simpl. apply IH.
      + destruct I; [congruence|auto].
      + intros; apply Z; simpl; auto.
  Qed.

  Lemma flat_map_nil {A B} (g : A -> list B) l : (forall a, In a l -> g a = []) -> flat_map g l = [].
  Proof. induction l as [|x l IH]; simpl; intros Q; auto. rewrite Q by auto. apply IH. auto. Qed.

  Lemma filter_nil {A} (f : A -> bool) l : (forall a, In a l -> f a = false) -> filter f l = [].
  Proof. induction l as [|x l IH]; simpl; intros Q; auto. rewrite Q by auto. apply IH. auto. Qed.

  (* the sum of the initial values of the instances lo .. lo + cnt - 1 *)
  Context (u : nat -> Z -> V).
  Definition bsum (lo cnt : nat) (x : Z) : V := fold_right op e (map (fun i => u i x) (seq lo cnt)).

  Lemma bsum_app lo a b x : bsum lo (a + b) x = op (bsum lo a x) (bsum (lo + a) b x).
  Proof.
    unfold bsum. rewrite seq_app, map_app, fold_right_app.
    generalize (map (fun i => u i x) (seq lo a)). intros l. revert op_assoc op_e_l. clear. intros A E.
    induction l as [|v l IH]; simpl; [now rewrite E|]. now rewrite IH, A.
  Qed.

  Lemma bsum_blocks lo w k x :
    fold_left op (map (fun i => bsum (lo + i * w) w x) (seq 1 k)) (bsum lo w x) = bsum lo (S k * w) x.
  Proof.
    induction k as [|k IH].
    - simpl. now rewrite Nat.add_0_r.
    - rewrite seq_S, map_app, fold_left_app, IH. cbn [map fold_left].
      replace (S (S k) * w) with (S k * w + w) by (simpl; lia). rewrite bsum_app. f_equal.
  Qed.

  (* ghost instances, if there are any, hold the neutral element *)
  Hypothesis ghosts : forall i x, h <= i * f0 -> u i x = e.
  Hypothesis real_whole : h mod f0 = 0.

  Definition level_ok (s : nat) (m : Z -> V) : Prop :=
    forall b x, (b + 1) * Hs s <= Hs (F - 1) -> (0 <= x < sz)%Z -> m (addr (b * Hs s) x) = bsum (b * Hs s) (Hs s) x.

  Lemma bsum_e lo cnt x : (forall i, lo <= i < lo + cnt -> u i x = e) -> bsum lo cnt x = e.
  Proof.
    intros Q. unfold bsum.
    assert (forall l, (forall i, In i l -> u i x = e) -> fold_right op e (map (fun i => u i x) l) = e).
    { revert op_e_l. clear. intros E. induction l as [|i l IH]; simpl; intros Q; auto.
      rewrite (Q i), IH by auto. apply E. }
    apply H. intros i I. apply in_seq in I. apply Q. lia.
  Qed.

  Lemma level_value s m : S s < F -> level_ok s m -> level_ok (S s) (item_phase n acts op send (P0 + S s) m).
  Proof.
    intros HsF Ok b x Hb X.
    pose proof (Dpos s) as DP. pose proof (Dpos (S s)) as DPS.
    assert (HP : 0 < Hs s) by (now apply H_pos).
    assert (HPS : 0 < Hs (S s)) by (now apply H_pos).
    assert (EH : Hs (S s) = Hs s * fac (S s)) by reflexivity.
    assert (FP : 0 < fac (S s)) by auto.
    assert (ED : Ds (S s) = f0 * Hs (S s)) by reflexivity.
    assert (BF : forall i, i < fac (S s) -> (b * fac (S s) + i + 1) * Hs s <= Hs (F - 1)) by (intros; nia).
    assert (Sub : forall i, i < fac (S s) -> m (addr (b * Hs (S s) + i * Hs s) x) = bsum (b * Hs (S s) + i * Hs s) (Hs s) x).
    { intros i Hi. replace (b * Hs (S s) + i * Hs s) with ((b * fac (S s) + i) * Hs s) by (rewrite EH; ring).
      apply Ok; auto. }
    rewrite item_phase_gather.
    set (L := flat_map _ _).
    assert (InL : forall a, In a L -> exists c i x', a = (c, (Reduce, addr (c / Ds (S s) * Hs (S s)) x',
                    Shm (addr (c / Ds (S s) * Hs (S s) + i * Hs s) x'))) /\ c < h /\ 1 <= i < fac (S s) /\
                    reg (S s) (c mod Ds (S s)) x' /\ (0 <= x' < sz)%Z).
    { intros a I. apply in_flat_map in I. destruct I as (c & Ic & I). apply in_seq in Ic.
      apply in_map_iff in I. destruct I as (((k & d) & sr) & <- & I).
      rewrite acts_level in I by (auto; lia). destruct (Nat.ltb_spec c h) as [Lh|Lh]; [|destruct I].
      destruct (in_level s c k d sr I) as (i & x' & -> & Hi & R & -> & ->).
      exists c, i, x'. split; [reflexivity|]. split; [auto|]. split; [auto|]. split; [auto|].
      exact (reg_sz _ _ _ (modD _ _) R). }
    rewrite (gather_spec (fun a => match snd (snd a) with Shm z => m z | Snd z => send (fst a) z end)).
    - destruct (le_lt_dec h (b * Ds (S s))) as [Gh|Real].
      + (* ghost block: nothing is written *)
        rewrite filter_nil.
        * simpl. specialize (Sub 0 FP). simpl in Sub. rewrite Nat.add_0_r in Sub. rewrite Sub.
          rewrite !bsum_e; auto; intros i Hi; apply ghosts; rewrite ED in Gh; nia.
        * intros a I. destruct (InL a I) as (c & i & x' & -> & Hc & Hi & R & X'). unfold dst. cbn [fst snd].
          apply Z.eqb_neq. intros E. destruct (addr_inj _ _ _ _ X' X E) as (E1 & _).
          assert (c / Ds (S s) = b) by nia.
          pose proof (Nat.mul_div_le c (Ds (S s)) ltac:(lia)). rewrite H in H0. lia.
      + destruct (region_cover ts sz f0 fac ts_pos sz_nn sz_ts f0_pos fac_pos (S s) x X) as (y & Hy & R).
        pose proof (own_real (S s) b y x HsF Real Hy R) as Ho.
        set (o := b * Ds (S s) + y) in *.
        assert (Eod : o / Ds (S s) = b).
        { unfold o. rewrite Nat.div_add_l by lia. rewrite Nat.div_small by auto. lia. }
        assert (Eom : o mod Ds (S s) = y).
        { unfold o. rewrite Nat.add_comm, Nat.mod_add by lia. now apply Nat.mod_small. }
        unfold L. rewrite filter_flat_map.
        rewrite (flat_map_single _ Nat.eq_dec (seq 0 n) o).
        * rewrite acts_level by (auto; lia). rewrite (proj2 (Nat.ltb_lt o h) Ho).
          unfold level_acts. rewrite Eod, Eom. unfold region in R.
          destruct (Cs (S s) y) as (size & off) eqn:EC. cbn [fst snd] in R.
          assert (Fl : forall l, filter (fun a => (dst a =? addr (b * Hs (S s)) x)%Z)
              (map (pair o) (flat_map (fun i => map (fun o0 => (Reduce, addr (b * Hs (S s)) (off + o0)%Z,
                 Shm (addr (b * Hs (S s) + i * Hs s) (off + o0)%Z))) (zseq size)) l)) =
              map (fun i => (o, (Reduce, addr (b * Hs (S s)) x, Shm (addr (b * Hs (S s) + i * Hs s) x)))) l).
          { induction l as [|i l IHl]; [reflexivity|].
            match goal with |- context [flat_map ?g (i :: l)] => change (flat_map g (i :: l)) with (g i ++ flat_map g l) end.
            rewrite map_app, filter_app.
            match goal with |- context [map ?g (i :: l)] => change (map g (i :: l)) with ([g i] ++ map g l) end.
            apply (f_equal2 (@app (nat * act))); [|exact IHl]. rewrite map_map.
            assert (Z1 : forall zl, NoDup zl -> In (x - off)%Z zl -> (forall z, In z zl -> (0 <= z < size)%Z) ->
               filter (fun a => (dst a =? addr (b * Hs (S s)) x)%Z)
                (map (fun x0 => (o, (Reduce, addr (b * Hs (S s)) (off + x0)%Z,
                   Shm (addr (b * Hs (S s) + i * Hs s) (off + x0)%Z)))) zl) =
               [(o, (Reduce, addr (b * Hs (S s)) x, Shm (addr (b * Hs (S s) + i * Hs s) x)))]).
            { pose proof (C_in ts sz f0 fac ts_pos sz_nn sz_ts f0_pos fac_pos (S s) y Hy) as ((B1 & B2 & B3) & _).
              rewrite EC in B1, B2, B3. cbn [fst snd] in B1, B2, B3.
              induction 1 as [|z zl Hz ND IHz]; intros I Q; [destruct I|]. cbn [map filter].
              unfold dst at 1. cbn [fst snd].
              destruct (Z.eq_dec z (x - off)) as [->|Nz].
              - replace (off + (x - off))%Z with x by lia. rewrite Z.eqb_refl. f_equal.
                apply filter_nil. intros a Ia. apply in_map_iff in Ia. destruct Ia as (z & <- & Iz).
                unfold dst. cbn [fst snd]. apply Z.eqb_neq. intros E.
                apply addr_inj in E; [|specialize (Q z ltac:(simpl; auto)); lia|auto].
                destruct E as (_ & E). assert (z = x - off)%Z by lia. subst z. contradiction.
              - rewrite (proj2 (Z.eqb_neq _ _)).
                + apply IHz; [destruct I; [congruence|auto]|intros; apply Q; simpl; auto].
                + intros E. apply addr_inj in E; [|specialize (Q z ltac:(simpl; auto)); lia|auto].
                  lia. }
            apply Z1.
            - unfold zseq. apply FinFun.Injective_map_NoDup; [|apply seq_NoDup]. intros p q; lia.
            - apply in_zseq. lia.
            - intros z Iz. now apply in_zseq. }
          rewrite Fl. rewrite map_map. cbn [fst snd].
          pose proof (Sub 0 FP) as S0. simpl (0 * Hs s) in S0. rewrite Nat.add_0_r in S0. rewrite S0.
          rewrite (map_ext_in _ (fun i => bsum (b * Hs (S s) + i * Hs s) (Hs s) x)).
          -- rewrite bsum_blocks. f_equal. rewrite EH. replace (S (fac (S s) - 1)) with (fac (S s)) by lia. ring.
          -- intros i Ii. apply in_seq in Ii. apply Sub. lia.
        * apply seq_NoDup.
        * apply in_seq. lia.
        * intros c Ic Nc. apply in_seq in Ic. apply filter_nil. intros a Ia.
          assert (IL : In a L) by (unfold L; apply in_flat_map; exists c; split; [apply in_seq; lia|auto]).
          destruct (InL a IL) as (c' & i & x' & -> & Hc & Hi & R' & X').
          apply in_map_iff in Ia. destruct Ia as (a' & E & _). inversion E; subst c'.
          unfold dst. cbn [fst snd]. apply Z.eqb_neq. intros E'.
          destruct (addr_inj _ _ _ _ X' X E') as (E1 & ->).
          apply Nc. assert (Eb : c / Ds (S s) = b) by nia.
          assert (HmD : c mod Ds (S s) < Ds (S s)) by (apply Nat.mod_upper_bound; lia).
          pose proof (region_unique ts sz f0 fac ts_pos sz_nn sz_ts f0_pos fac_pos (S s) x _ _ Hy HmD R R') as Q.
          rewrite (Nat.div_mod c (Ds (S s))) by lia. rewrite Eb, <- Q. unfold o. ring.
    - intros a I. destruct (InL a I) as (c & i & x' & -> & _). reflexivity.
    - intros (c0 & ((k0 & d0) & s0)) z I E. cbn [fst snd] in *. now subst s0.
    - intros (c0 & ((k0 & d0) & s0)) z I E. cbn [fst snd] in *. now subst s0.
    - intros a a' z I I' E.
      destruct (InL a I) as (c & i & x1 & -> & Hc & Hi & R1 & X1).
      destruct (InL a' I') as (c' & i' & x2 & -> & Hc' & Hi' & R2 & X2).
      cbn [fst snd] in E. inversion E; subst z. unfold dst. cbn [fst snd]. intros Q.
      destruct (addr_inj _ _ _ _ X1 X2 Q) as (Q1 & _).
      revert Q1. generalize (c / Ds (S s)) (c' / Ds (S s)). intros p q Q1.
      assert (i * Hs s < Hs (S s)) by nia. assert (0 < i * Hs s) by nia.
      assert (p = q) by (apply (blk_unique (Hs (S s)) p q (q * Hs (S s))); auto; lia). subst q. lia.
  Qed.

  Lemma empty_phase i m : (forall c, c < n -> acts c i = []) -> item_phase n acts op send i m = m.
  Proof.
    intros E. unfold item_phase. apply fold_left_id. intros a c Ic. apply in_seq in Ic. rewrite E by lia. reflexivity.
  Qed.

  Hypothesis acts_sep : forall c i, c < n -> 0 < i -> len i = 0 -> acts c i = [].

  (* the state after the items up to P0 *)
  Theorem tree_value m0 x : 0 < h -> (0 <= x < sz)%Z ->
    (forall i x, i < Hs (F - 1) -> (0 <= x < sz)%Z ->
       fold_left (fun m i => item_phase n acts op send i m) (seq 0 (S P0)) m0 (addr i x) = u i x) ->
    lock n (iprog ws acts M) (cm M) op send m0 (addr 0 x) = bsum 0 (Hs (F - 1)) x.
  Proof.
    intros Hh X Init. rewrite (lock_items n len ws acts ws_len ws_n op send acts_sep).
    unfold M. replace (P0 + F + 2) with (S P0 + (F - 1) + 2) by lia.
    rewrite !seq_app, !fold_left_app.
    assert (Lv : forall k, k < F -> level_ok k (fold_left (fun m i => item_phase n acts op send i m) (seq (0 + S P0) k)
        (fold_left (fun m i => item_phase n acts op send i m) (seq 0 (S P0)) m0))).
    { induction k as [|k IH]; intros Hk.
      - intros b z Hb Z. simpl (seq _ 0). cbn [fold_left]. simpl Hs. rewrite Nat.mul_1_r.
        rewrite Init; auto; [|simpl in Hb; lia]. unfold bsum. simpl. now rewrite op_e_r.
      - rewrite seq_S, fold_left_app. cbn [fold_left].
        replace (0 + S P0 + k) with (P0 + S k) by lia. apply level_value; auto. apply IH. lia. }
    specialize (Lv (F - 1) ltac:(lia)).
    replace (0 + (S P0 + (F - 1))) with (P0 + F) by lia. simpl (seq (P0 + F) 2). cbn [fold_left].
    rewrite (empty_phase (S (P0 + F))) by (intros; apply acts_final; auto; lia).
    rewrite (empty_phase (P0 + F)) by (intros; apply acts_final; auto; lia).
    apply (Lv 0 x); auto. lia.
  Qed.
End Tree.
