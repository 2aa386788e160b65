(* copyin_method 1: two barriers, reduce_copyin with groups of one core, the
   pairwise reduction reduce_copies_almost_half, then reduce_copies for the
   lower cores. *)
From Verif Require Import Base BarrierModel NodeModel SyncProofs SyncItems TreeProofs TreeKnow NodeCode NodeCopyin NodeLayout NodeItems NodeAsm NodeZero.
From Coq Require Import Permutation.
Local Open Scope nat_scope.
Local Ltac Zify.zify_post_hook ::= idtac.

Section Half.
  Context (n h : nat) (counts : list Z) (fracs : list nat) (ts : Z) (fac : nat -> nat) (F : nat).
  Notation sz := (total counts).
  Hypothesis counts_nn : Forall (fun z => (0 <= z)%Z) counts.
  Hypothesis fracs_perm : Permutation fracs (seq 0 (length counts)).
  Hypothesis ts_pos : (0 < ts)%Z.
  Hypothesis sz_pos : (0 < sz)%Z.
  Hypothesis sz_ts : exists q, (sz = q * ts)%Z.
  Hypothesis fac_pos : forall s, 0 < fac s.
  Hypothesis F_pos : 0 < F.
  Hypothesis h_n : h < n.
  Hypothesis n_2h : n <= 2 * h.
  Notation Hs := (H fac).
  Notation Ds := (D 1 fac).
  Notation v := (Ds (F - 1)).
  Hypothesis v_h : v = h.
  Notation addr := (iaddr false sz).
  Notation src := (src counts fracs).
  Notation d_ := (n - h).

  Definition partner (c : nat) : nat := if c <? d_ then c + h else if h <=? c then c - h else c.
  Definition low (c : nat) : nat := if c <? d_ then c else c - h.
  Definition pc (c : nat) : nat := if c <? d_ then 0 else 1.
  Definition paired (c : nat) : bool := (c <? d_) || (h <=? c).
  Definition pacts (c : nat) : list act :=
    if paired c
    then map (fun x => (Reduce, addr (low c) x, Shm (addr (low c + h) x)))
             (zrange (pst sz ts 2 (pc c)) (pst sz ts 2 (pc c) + psz sz ts 2 (pc c)))
    else [].

  Definition wsH (c i : nat) : list nat :=
    if i =? 0 then diss n c ++ diss n c else if i =? 1 then [] else [partner c].
  Definition actsH (c i : nat) : list act :=
    if i =? 0 then cacts counts fracs ts 1 false c 0 else if i =? 2 then pacts c else [].
  Definition lenH (i : nat) : nat := if i =? 0 then clg n + clg n else if i =? 1 then 0 else 1.

  Lemma n_pos : 0 < n. Proof. lia. Qed.
  Lemma h_pos : 0 < h. Proof. lia. Qed.
  Lemma h_v : h <= v. Proof. lia. Qed.
  Lemma wholeH : v = h \/ (sz < 128)%Z. Proof. auto. Qed.
  Lemma shapeH : (h = n /\ true = false) \/ (h <= n /\ v = h /\ true = true).
  Proof. right. repeat split; auto. lia. Qed.
  Lemma fastH : false = true -> (sz <= 56)%Z. Proof. discriminate. Qed.

  Lemma partner_lt c : c < n -> partner c < n.
  Proof.
    intros Hc. unfold partner. destruct (Nat.ltb_spec c d_); [lia|]. destruct (Nat.leb_spec h c); lia.
  Qed.

  Lemma H_len c i : c < n -> i <= 3 -> length (wsH c i) = lenH i.
  Proof.
    intros _ _. unfold wsH, lenH, diss, rounds. destruct (i =? 0); [|destruct (i =? 1)];
      rewrite ?app_length, ?map_length, ?seq_length; reflexivity.
  Qed.
  Lemma H_n c i x : c < n -> i <= 3 -> In x (wsH c i) -> x < n.
  Proof.
    intros Hc Hi. unfold wsH. destruct (i =? 0); [|destruct (i =? 1)].
    - rewrite in_app_iff. intros I. assert (J : In x (diss n c)) by tauto. unfold diss, rounds in J.
      apply in_map_iff in J. destruct J as (e & <- & _). apply Nat.mod_upper_bound. lia.
    - intros [].
    - intros [<-|[]]. now apply partner_lt.
  Qed.

  Notation ws := (aws h ts sz 1 fac F true 3 wsH).
  Notation acts := (aacts h ts sz 1 fac F false 3 actsH).
  Notation len := (alen h ts sz 1 fac F true 3 lenH).
  Notation M := (3 + F + 2).
  Notation prog := (iprog ws acts M).
  Notation cm := (cum len).

  Lemma wsH_len c i : c < n -> length (ws c i) = len i.
  Proof.
    exact (aws_len n h ts sz 1 fac F true 3 wsH lenH Nat.lt_0_1 fac_pos h_pos F_pos h_v wholeH shapeH H_len c i).
  Qed.
  Lemma wsH_n c i x : c < n -> In x (ws c i) -> x < n.
  Proof.
    exact (aws_n n h ts sz 1 fac F false true 3 wsH actsH lenH ts_pos sz_pos sz_ts Nat.lt_0_1 fac_pos h_pos F_pos h_v wholeH shapeH H_len H_n c i x).
  Qed.

  (* ---- who touches what ---- *)
  Lemma in_cacts1 c k d s : In (k, d, s) (cacts counts fracs ts 1 false c 0) ->
    exists x, k = Copy /\ d = addr c x /\ s = Snd (src x) /\ (0 <= x < sz)%Z.
  Proof.
    intros I. destruct (in_cacts counts fracs ts 1 false counts_nn ts_pos sz_ts Nat.lt_0_1 c 0 k d s I) as (x & A1 & A2 & A3 & A4 & _).
    exists x. rewrite Nat.div_1_r in A2. auto.
  Qed.

  Lemma piece2 q : q < 2 -> (0 <= pst sz ts 2 q /\ 0 <= psz sz ts 2 q /\ pst sz ts 2 q + psz sz ts 2 q <= sz)%Z.
  Proof. intros Hq. exact (piece_in sz ts 2 ts_pos (Z.lt_le_incl _ _ sz_pos) sz_ts Nat.lt_0_2 q Hq). Qed.

  Lemma pc_lt c : pc c < 2.
  Proof. unfold pc. destruct (_ <? _); lia. Qed.

  Lemma in_pacts c k d s : c < n -> In (k, d, s) (pacts c) ->
    exists x, k = Reduce /\ d = addr (low c) x /\ s = Shm (addr (low c + h) x) /\ (0 <= x < sz)%Z /\
      low c < d_ /\ (c = low c \/ c = low c + h) /\
      (pst sz ts 2 (pc c) <= x < pst sz ts 2 (pc c) + psz sz ts 2 (pc c))%Z.
  Proof.
    intros Hc. unfold pacts. destruct (paired c) eqn:P; [|intros []]. intros I.
    apply in_map_iff in I. destruct I as (x & E & Ix). apply in_zrange in Ix. inversion E; subst.
    exists x. pose proof (piece2 (pc c) (pc_lt c)) as P2.
    assert (L : low c < d_ /\ (c = low c \/ c = low c + h)).
    { clear - P Hc h_n n_2h. unfold paired in P. unfold low. destruct (Nat.ltb_spec c d_); [lia|].
      destruct (Nat.leb_spec h c); [lia|discriminate]. }
    destruct L as (L1 & L2). split; [reflexivity|]. split; [reflexivity|]. split; [reflexivity|].
    split; [clear - P2 Ix; lia|]. auto.
  Qed.

  Lemma touchesH c i a : c < n -> touches actsH c i a ->
    exists inst x, a = addr inst x /\ (0 <= x < sz)%Z /\ inst < n /\
      ((i = 0 /\ inst = c) \/ (i = 2 /\ (inst = c \/ inst = partner c))).
  Proof.
    intros Hc (k & d & s & I & E). unfold actsH in I. destruct (Nat.eqb_spec i 0) as [->|N0].
    - destruct (in_cacts1 c k d s I) as (x & -> & -> & -> & Hx). exists c, x. destruct E as [E|E]; [|discriminate]. auto 10.
    - destruct (Nat.eqb_spec i 2) as [->|N2]; [|destruct I].
      destruct (in_pacts c k d s Hc I) as (x & -> & -> & -> & Hx & L & Ec & _).
      assert (P : partner c = if c <? d_ then c + h else c - h).
      { unfold partner. destruct (Nat.ltb_spec c d_); auto. destruct (Nat.leb_spec h c); auto. lia. }
      destruct E as [E|E].
      + exists (low c), x. split; auto. split; auto. split; [lia|]. right. split; auto.
        rewrite P. unfold low in *. destruct (Nat.ltb_spec c d_); auto.
      + injection E as E. exists (low c + h), x. split; auto. split; auto. split; [lia|]. right. split; auto.
        rewrite P. unfold low in *. destruct (Nat.ltb_spec c d_); auto. lia.
  Qed.

  Lemma partner_self c : c < n -> partner (partner c) = c.
  Proof.
    intros Hc. unfold partner. destruct (Nat.ltb_spec c d_).
    - destruct (Nat.ltb_spec (c + h) d_); [lia|]. destruct (Nat.leb_spec h (c + h)); lia.
    - destruct (Nat.leb_spec h c).
      + destruct (Nat.ltb_spec (c - h) d_); lia.
      + destruct (Nat.ltb_spec c d_); [lia|]. destruct (Nat.leb_spec h c); lia.
  Qed.

  Lemma preH_cells c i a : c < n -> i <= 3 -> touches actsH c i a ->
    exists inst x, a = addr inst x /\ (0 <= x < sz)%Z /\ (inst < Hs (F - 1) -> inst * 1 < h).
  Proof.
    intros Hc _ T. destruct (touchesH c i a Hc T) as (inst & x & E & Hx & _). exists inst, x. split; auto. split; auto.
    intros L. rewrite <- v_h. unfold D. lia.
  Qed.

  (* the pairs of the items 2 and 3 *)
  Lemma pair_wait c i : c < n -> i = 2 \/ i = 3 ->
    knows prog c (cm (S i)) (partner c) (cm i).
  Proof.
    intros Hc Hi.
    assert (L : 0 < len i).
    { unfold alen. rewrite (proj2 (Nat.leb_le i 3)) by lia. unfold lenH. destruct Hi as [-> | ->]; cbn; lia. }
    destruct (item_wait n len ws acts wsH_len wsH_n M c i 0 Hc ltac:(lia) L) as (Q & _).
    assert (E : nth 0 (ws c i) 0 = partner c).
    { unfold aws. rewrite (proj2 (Nat.leb_le i 3)) by lia. destruct Hi as [-> | ->]; reflexivity. }
    now rewrite E in Q.
  Qed.

  Lemma preH_know inst y x d i : inst * 1 + y < h -> y < 1 -> region ts sz 1 fac 0 y x ->
    d < n -> d <> inst * 1 + y -> i <= 3 -> touches actsH d i (addr inst x) ->
    knows prog (inst * 1 + y) (cm 4) d (cm (S i)).
  Proof.
    intros Hi Hy R Hd Ne Hi3 T.
    assert (Hx : (0 <= x < sz)%Z).
    { destruct (C_in ts sz 1 fac ts_pos (Z.lt_le_incl _ _ sz_pos) sz_ts Nat.lt_0_1 fac_pos 0 y) as (Q1 & Q2 & Q3).
      - unfold D. cbn [H]. lia.
      - unfold region in R. lia. }
    destruct (touchesH d i _ Hd T) as (inst' & x' & E & Hx' & Hin & Cs).
    destruct (iaddr_inj false sz fastH _ _ _ _ Hx Hx' E) as (<- & <-).
    replace (inst * 1 + y) with inst in * by lia.
    destruct Cs as [(-> & E1)|(-> & [E1|E1])]; [congruence|congruence|].
    assert (Ep : partner inst = d) by (rewrite E1; now apply partner_self).
    pose proof (pair_wait inst 3 Hin ltac:(auto)) as Q. rewrite Ep in Q. exact Q.
  Qed.

  Lemma preH_race c d i j k1 d1 s1 k2 d2 s2 : c < n -> d < n -> c <> d -> i <= 3 -> j <= 3 ->
    In (k1, d1, s1) (actsH c i) -> In (k2, d2, s2) (actsH d j) -> clash k1 d1 s1 k2 d2 s2 ->
    knows prog d (cm (S j)) c (cm (S i)) \/ knows prog c (cm (S i)) d (cm (S j)).
  Proof.
    intros Hc Hd Ne Hi Hj I J Cl.
    assert (Cl' : exists a, touches actsH c i a /\ touches actsH d j a).
    { destruct Cl as [E|[E|E]].
      - exists d1. split; [exists k1, d1, s1; auto|exists k2, d2, s2; subst; auto].
      - exists d1. split; [exists k1, d1, s1; auto|exists k2, d2, s2; subst; auto].
      - exists d2. split; [exists k1, d1, s1; subst; auto|exists k2, d2, s2; auto]. }
    destruct Cl' as (a & T1 & T2).
    destruct (touchesH c i a Hc T1) as (u1 & x1 & E1 & Hx1 & Hu1 & C1).
    destruct (touchesH d j a Hd T2) as (u2 & x2 & E2 & Hx2 & Hu2 & C2).
    rewrite E1 in E2. destruct (iaddr_inj false sz fastH _ _ _ _ Hx1 Hx2 E2) as (<- & <-).
    assert (Mono : forall i j, i <= j -> cm i <= cm j) by (apply (cum_mono len ws acts)).
    assert (SP : forall q, q < n -> partner (partner q) = q) by exact partner_self.
    destruct C1 as [(-> & ->)|(-> & C1)]; destruct C2 as [(-> & ->)|(-> & C2)].
    - congruence.
    - left. destruct C2 as [->|Ec]; [congruence|].
      assert (Ep : partner d = c) by congruence.
      pose proof (pair_wait d 2 Hd ltac:(auto)) as Q. rewrite Ep in Q.
      eapply k_down; [exact Q|]. apply Mono. lia.
    - right. destruct C1 as [->|Ec]; [congruence|].
      assert (Ep : partner c = d) by congruence.
      pose proof (pair_wait c 2 Hc ltac:(auto)) as Q. rewrite Ep in Q.
      eapply k_down; [exact Q|]. apply Mono. lia.
    - (* the two cores of a pair work on different pieces *)
      exfalso.
      destruct (in_pacts c k1 d1 s1 Hc I) as (y1 & _ & -> & -> & Hy1 & L1 & Ec1 & P1).
      destruct (in_pacts d k2 d2 s2 Hd J) as (y2 & _ & -> & -> & Hy2 & L2 & Ec2 & P2).
      destruct Cl as [E|[E|E]].
      + destruct (iaddr_inj false sz fastH _ _ _ _ Hy1 Hy2 E) as (El & <-).
        assert (Ep : pc c = pc d).
        { exact (piece_unique sz ts 2 ts_pos (Z.lt_le_incl _ _ sz_pos) sz_ts Nat.lt_0_2 y1 (pc c) (pc d) (pc_lt c) (pc_lt d) P1 P2). }
        clear - Ep El Ne Ec1 Ec2 L1 L2 h_n n_2h. unfold pc, low in *.
        destruct (Nat.ltb_spec c d_), (Nat.ltb_spec d d_); try discriminate; lia.
      + injection E as E. destruct (iaddr_inj false sz fastH _ _ _ _ Hy2 Hy1 E) as (El & _). clear - El L1 L2 h_n n_2h. lia.
      + injection E as E. destruct (iaddr_inj false sz fastH _ _ _ _ Hy1 Hy2 E) as (El & _). clear - El L1 L2 h_n n_2h. lia.
  Qed.

  Lemma preH_sep c i : c < n -> 0 < i -> i <= 3 -> lenH i = 0 -> actsH c i = [].
  Proof.
    intros _ Hi H3. unfold lenH, actsH. destruct (Nat.eqb_spec i 0); [lia|]. destruct (Nat.eqb_spec i 1) as [->|]; [reflexivity|discriminate].
  Qed.

  (* ---- the text ---- *)
  Lemma half_pairs c : c < n ->
    micro_code (almost_half (Z.of_nat n) (Z.of_nat h) sz ts (Z.of_nat c)) =
    item wsH actsH c 2 ++ item wsH actsH c 3.
  Proof.
    intros Hc. unfold almost_half. rewrite <- Nat2Z.inj_sub by lia.
    unfold item, wsH, actsH. cbn [Nat.eqb]. cbn [map]. rewrite app_nil_r.
    assert (E1 : (Z.of_nat c <? Z.of_nat d_)%Z = (c <? d_)).
    { destruct (Z.ltb_spec (Z.of_nat c) (Z.of_nat d_)), (Nat.ltb_spec c d_); auto; lia. }
    assert (E2 : (Z.of_nat h <=? Z.of_nat c)%Z = (h <=? c)).
    { destruct (Z.leb_spec (Z.of_nat h) (Z.of_nat c)), (Nat.leb_spec h c); auto; lia. }
    rewrite E1, E2. fold (paired c).
    destruct (paired c) eqn:P.
    - assert (Ep : (if c <? d_ then (Z.rem (Z.of_nat c) (Z.of_nat d_) + Z.of_nat h)%Z
                    else Z.rem (Z.of_nat c - Z.of_nat h) (Z.of_nat d_)) = Z.of_nat (partner c)).
      { unfold partner. unfold paired in P. destruct (Nat.ltb_spec c d_).
        - rewrite rem_nat by lia. rewrite Nat.mod_small by lia. lia.
        - cbn [orb] in P. rewrite P. apply Nat.leb_le in P. rewrite <- Nat2Z.inj_sub, rem_nat by lia.
          rewrite Nat.mod_small by lia. reflexivity. }
      assert (Eq : (if c <? d_ then Z.quot (Z.of_nat c) (Z.of_nat d_) else 1%Z) = Z.of_nat (pc c)).
      { unfold pc. destruct (Nat.ltb_spec c d_); [|reflexivity]. rewrite quot_nat by lia. rewrite Nat.div_small by lia. reflexivity. }
      assert (El : (if c <? d_ then Z.rem (Z.of_nat c) (Z.of_nat d_) else (Z.of_nat c - Z.of_nat h)%Z) = Z.of_nat (low c)).
      { unfold low. unfold paired in P. destruct (Nat.ltb_spec c d_).
        - rewrite rem_nat by lia. rewrite Nat.mod_small by lia. reflexivity.
        - cbn [orb] in P. apply Nat.leb_le in P. lia. }
      rewrite Ep, Eq, El.
      assert (Ea : pst sz ts 2 (pc c) = fst (piece sz ts 2 (Z.of_nat (pc c)))) by reflexivity.
      assert (Es : psz sz ts 2 (pc c) = snd (piece sz ts 2 (Z.of_nat (pc c)))) by reflexivity.
      destruct (piece sz ts 2 (Z.of_nat (pc c))) as (al & sl). cbn [fst snd] in Ea, Es.
      change (-2)%Z with (- Z.of_nat 2)%Z. change 2%Z with (Z.of_nat 2).
      rewrite (lb_fin c 2 2 [Z.of_nat c; Z.of_nat (partner c)] (fun _ => partner c)) by
        (first [lia | reflexivity | intros e0 He; change (clg 2) with 1 in He; replace e0 with 0 by lia; reflexivity]).
      change (rounds (clg 2) (fun _ => partner c)) with [partner c].
      rewrite !micro_app, !micro_bar. rewrite <- app_assoc. f_equal. f_equal.
      unfold pacts. rewrite P, Ea, Es. unfold zrange. replace (al + sl - al)%Z with sl by lia.
      unfold micro_code. cbn [flat_map micro_of]. rewrite app_nil_r. rewrite !map_map. apply map_ext. intros i.
      unfold mact, shift, iaddr. cbn [fst snd]. f_equal; [lia|]. f_equal. lia.
    - unfold pacts. rewrite P. cbn [map]. rewrite app_nil_r.
      change (-2)%Z with (- Z.of_nat 2)%Z. rewrite lb_idle by lia. change (repeat c (clg 2)) with [c].
      rewrite micro_app, micro_bar. unfold paired in P. apply orb_false_iff in P. unfold partner. destruct P as (-> & ->). reflexivity.
  Qed.

  Lemma gdiss_1 c : gdiss 1 c = [].
  Proof. reflexivity. Qed.

  Lemma half_code c : c < n ->
    micro_code (socket_barrier (Z.of_nat n) (Z.of_nat c) ++ socket_barrier (Z.of_nat n) (Z.of_nat c) ++
      reduce_copyin counts fracs (Z.rem (Z.of_nat c) 1) ts (Z.quot (Z.of_nat c) 1) 1
        (group_ranks (Z.of_nat n) 1 (Z.of_nat c)) false ++
      almost_half (Z.of_nat n) (Z.of_nat h) sz ts (Z.of_nat c) ++
      reduce_copies (Z.of_nat h) (factors_ 1 fac F) sz ts (Z.of_nat c) false true) = prog c.
  Proof.
    intros Hc. rewrite <- (asm_code n h ts sz 1 fac F false true 3 wsH actsH lenH ts_pos sz_pos sz_ts Nat.lt_0_1 fac_pos h_pos F_pos h_v wholeH
      shapeH H_len H_n preH_cells preH_know preH_race preH_sep c Hc).
    change 1%Z with (Z.of_nat 1).
    rewrite (group_ranks_eq n 1 c) by (try apply Nat.mod_1_r; lia).
    rewrite copyin_code by lia. rewrite sb_eq by auto. rewrite !micro_app, half_pairs by auto. rewrite !micro_bar.
    rewrite gdiss_1. cbn [seq Nat.sub flat_map pairs]. cbn [micro_code flat_map app].
    destruct (cmoves_acts counts fracs ts 1 false counts_nn fracs_perm ts_pos sz_ts Nat.lt_0_1 c 0) as (C1 & C2).
    rewrite micro_moves, C2 by auto.
    assert (E0 : item wsH actsH c 0 = pairs c (diss n c) ++ pairs c (diss n c) ++ map mact (cacts counts fracs ts 1 false c 0)).
    { unfold item, wsH, actsH. cbn [Nat.eqb]. unfold pairs. now rewrite flat_map_app, <- app_assoc. }
    assert (E1 : item wsH actsH c 1 = []) by reflexivity.
    cbn [seq flat_map]. rewrite E0, E1, app_nil_r. cbn [app]. rewrite <- !app_assoc. cbn [app]. reflexivity.
  Qed.

  (* ---- the values ---- *)
  Context {V : Type} (op : V -> V -> V) (e : V) (send : nat -> Z -> V) (m0 : Z -> V).
  Hypothesis op_assoc : forall a b c, op a (op b c) = op (op a b) c.
  Hypothesis op_comm : forall a b, op a b = op b a.
  Hypothesis op_e_l : forall a, op e a = a.
  Notation sum := (sum op e).
  Notation cop := (cop counts fracs send).

  Lemma opH_e_r a : op a e = a.
  Proof. rewrite op_comm. apply op_e_l. Qed.

  Definition uH (i : nat) (x : Z) : V :=
    if i <? h then (if i <? d_ then op (cop x i) (cop x (i + h)) else cop x i) else e.

  Lemma phase_copy c x m : c < n -> (0 <= x < sz)%Z -> item_phase n actsH op send 0 m (addr c x) = cop x c.
  Proof.
    intros Hc Hx.
    assert (Ep : forall c', pidx 1 c' 0 = 0) by (intros; unfold pidx; apply Nat.mod_1_r).
    assert (P0 : pst sz ts 1 0 = 0%Z /\ psz sz ts 1 0 = sz).
    { destruct (piece_facts sz ts 1 ts_pos (Z.lt_le_incl _ _ sz_pos) sz_ts Nat.lt_0_1) as (F0 & _ & F2 & F3).
      specialize (F2 0 Nat.lt_0_1). rewrite F0, F3 in F2. split; auto. }
    destruct P0 as (P1 & P2).
    assert (Ix : In x (zrange 0 (0 + sz))) by (apply in_zrange; lia).
    pose proof (NoDup_zrange 0 (0 + sz)) as ND.
    apply in_split in Ix. destruct Ix as (z1 & z2 & Ez). rewrite Ez in ND.
    assert (Hz : forall z, In z (z1 ++ z2) -> z <> x /\ (0 <= z < sz)%Z).
    { intros z Iz. split.
      - intros ->. apply NoDup_remove_2 in ND. contradiction.
      - assert (J : In z (zrange 0 (0 + sz))).
        { rewrite Ez. apply in_app_iff in Iz. apply in_app_iff. simpl. tauto. }
        apply in_zrange in J. lia. }
    set (mk := fun z => (Copy, addr c z, Snd (src z)) : act).
    rewrite (phase_one n actsH op send 0 m c (map mk z1) Copy (addr c x) (Snd (src x)) (map mk z2)); auto.
    - unfold actsH. cbn [Nat.eqb]. unfold cacts. rewrite Ep, P1, P2, Nat.div_1_r. cbn [Nat.eqb]. fold mk. rewrite Ez, map_app. reflexivity.
    - intros a Ia. rewrite <- map_app in Ia. apply in_map_iff in Ia. destruct Ia as (z & <- & Iz).
      destruct (Hz z Iz) as (Nz & Rz). cbn [fst snd mk]. intros E.
      apply (iaddr_inj false sz fastH) in E; auto. tauto.
    - intros c' a Hc' Nc Ia E. destruct a as [[k' d'] s']. cbn [fst snd] in E. unfold actsH in Ia. cbn [Nat.eqb] in Ia.
      destruct (in_cacts1 c' k' d' s' Ia) as (x' & _ & A2 & _ & A4).
      rewrite A2 in E. apply (iaddr_inj false sz fastH) in E; auto. destruct E as (E1 & _). congruence.
    - intros b c' a Es. discriminate.
  Qed.

  Lemma phase_pair i x m : i < h -> (0 <= x < sz)%Z ->
    item_phase n actsH op send 2 m (addr i x) = if i <? d_ then op (m (addr i x)) (m (addr (i + h) x)) else m (addr i x).
  Proof.
    intros Hi Hx. destruct (Nat.ltb_spec i d_) as [L|L].
    - destruct (piece_cover sz ts 2 ts_pos (Z.lt_le_incl _ _ sz_pos) sz_ts Nat.lt_0_2 x Hx) as (q & Hq & Hpx).
      set (c0 := if q =? 0 then i else i + h).
      assert (Hc0 : c0 < n) by (unfold c0; destruct (q =? 0); lia).
      assert (Hpc : pc c0 = q /\ low c0 = i /\ paired c0 = true).
      { unfold pc, low, paired, c0. destruct (Nat.eqb_spec q 0) as [->|Nq].
        - rewrite (proj2 (Nat.ltb_lt _ _) L). auto.
        - rewrite (proj2 (Nat.ltb_ge (i + h) d_)) by lia. rewrite (proj2 (Nat.leb_le h (i + h))) by lia. repeat split; lia. }
      destruct Hpc as (Hpc & Hlow & Hpd).
      assert (Ix : In x (zrange (pst sz ts 2 q) (pst sz ts 2 q + psz sz ts 2 q))) by now apply in_zrange.
      pose proof (NoDup_zrange (pst sz ts 2 q) (pst sz ts 2 q + psz sz ts 2 q)) as ND.
      apply in_split in Ix. destruct Ix as (z1 & z2 & Ez). rewrite Ez in ND.
      pose proof (piece2 q Hq) as Pq.
      assert (Hz : forall z, In z (z1 ++ z2) -> z <> x /\ (0 <= z < sz)%Z).
      { intros z Iz. split.
        - intros ->. apply NoDup_remove_2 in ND. contradiction.
        - assert (J : In z (zrange (pst sz ts 2 q) (pst sz ts 2 q + psz sz ts 2 q))).
          { rewrite Ez. apply in_app_iff in Iz. apply in_app_iff. simpl. tauto. }
          apply in_zrange in J. lia. }
      set (mk := fun z => (Reduce, addr i z, Shm (addr (i + h) z)) : act).
      rewrite (phase_one n actsH op send 2 m c0 (map mk z1) Reduce (addr i x) (Shm (addr (i + h) x)) (map mk z2)); auto.
      + unfold actsH. cbn [Nat.eqb]. unfold pacts. rewrite Hpd, Hpc, Hlow. fold mk. rewrite Ez, map_app. reflexivity.
      + intros a Ia. rewrite <- map_app in Ia. apply in_map_iff in Ia. destruct Ia as (z & <- & Iz).
        destruct (Hz z Iz) as (Nz & Rz). cbn [fst snd mk]. intros E.
        apply (iaddr_inj false sz fastH) in E; auto. tauto.
      + intros c' a Hc' Nc Ia E. destruct a as [[k' d'] s']. cbn [fst snd] in E. unfold actsH in Ia. cbn [Nat.eqb] in Ia.
        destruct (in_pacts c' k' d' s' Hc' Ia) as (x' & _ & A2 & _ & A4 & A5 & A6 & A7).
        rewrite A2 in E. apply (iaddr_inj false sz fastH) in E; auto. destruct E as (E1 & ->).
        assert (Eq : pc c' = q).
        { exact (piece_unique sz ts 2 ts_pos (Z.lt_le_incl _ _ sz_pos) sz_ts Nat.lt_0_2 x (pc c') q (pc_lt c') Hq A7 Hpx). }
        apply Nc. clear - E1 Eq A5 A6 L h_n n_2h. unfold c0, pc, low in *.
        destruct (Nat.ltb_spec c' d_); subst q; cbn [Nat.eqb]; lia.
      + intros b c' a [= <-] Hc' Ia E. destruct a as [[k' d'] s']. cbn [fst snd] in E. unfold actsH in Ia. cbn [Nat.eqb] in Ia.
        destruct (in_pacts c' k' d' s' Hc' Ia) as (x' & _ & A2 & _ & A4 & A5 & _).
        rewrite A2 in E. apply (iaddr_inj false sz fastH) in E; auto. destruct E as (E1 & _). lia.
    - apply phase_other. intros c a Hc Ia E. destruct a as [[k' d'] s']. cbn [fst snd] in E. unfold actsH in Ia. cbn [Nat.eqb] in Ia.
      destruct (in_pacts c k' d' s' Hc Ia) as (x' & _ & A2 & _ & A4 & A5 & _).
      rewrite A2 in E. apply (iaddr_inj false sz fastH) in E; auto. destruct E as (E1 & _). lia.
  Qed.

  Lemma half_init i x : i < Hs (F - 1) -> (0 <= x < sz)%Z ->
    fold_left (fun m j => item_phase n actsH op send j m) (seq 0 4) m0 (addr i x) = uH i x.
  Proof.
    intros Hi Hx. assert (Hh : i < h) by (rewrite <- v_h; unfold D; lia).
    cbn [seq fold_left]. rewrite (phase_other n actsH op send 3) by (intros c a _ []).
    rewrite phase_pair by auto. rewrite !(phase_other n actsH op send 1) by (intros c a _ []).
    unfold uH. rewrite (proj2 (Nat.ltb_lt i h) Hh). destruct (Nat.ltb_spec i d_).
    - now rewrite !phase_copy by (auto; lia).
    - now rewrite phase_copy by (auto; lia).
  Qed.

  Lemma sum_1 a : sum [a] = a.
  Proof. apply opH_e_r. Qed.
  Lemma bsum_1 k x : bsum op e uH k 1 x = uH k x.
  Proof. unfold bsum. cbn. apply opH_e_r. Qed.

  Lemma half_sum x : bsum op e uH 0 (Hs (F - 1)) x = sum (map (cop x) (seq 0 n)).
  Proof.
    assert (EH : Hs (F - 1) = h) by (rewrite <- v_h; unfold D; lia). rewrite EH.
    replace h with (d_ + (h - d_)) at 1 by lia. rewrite (bsum_app op e op_assoc op_e_l). cbn [plus].
    assert (B1 : forall k, k <= d_ -> bsum op e uH 0 k x = op (sum (map (cop x) (seq 0 k))) (sum (map (cop x) (seq h k)))).
    { induction k as [|k IH]; intros Hk; [cbn; now rewrite op_e_l|].
      replace (S k) with (k + 1) by lia. rewrite (bsum_app op e op_assoc op_e_l), IH by lia.
      rewrite !seq_app, !map_app, !(sum_app op e op_assoc op_e_l). cbn [plus seq map].
      rewrite bsum_1, !sum_1. unfold uH.
      rewrite (proj2 (Nat.ltb_lt k h)), (proj2 (Nat.ltb_lt k d_)) by lia. rewrite (Nat.add_comm h k).
      generalize (sum (map (cop x) (seq 0 k))), (sum (map (cop x) (seq h k))), (cop x k), (cop x (k + h)). intros a b c d.
      rewrite !op_assoc. f_equal. rewrite <- !op_assoc. f_equal. apply op_comm. }
    assert (B2 : forall k, d_ + k <= h -> bsum op e uH d_ k x = sum (map (cop x) (seq d_ k))).
    { induction k as [|k IH]; intros Hk; [reflexivity|].
      replace (S k) with (k + 1) by lia. rewrite (bsum_app op e op_assoc op_e_l), IH by lia.
      rewrite !seq_app, !map_app, !(sum_app op e op_assoc op_e_l). cbn [plus seq map].
      rewrite bsum_1, !sum_1. unfold uH.
      rewrite (proj2 (Nat.ltb_lt (d_ + k) h)), (proj2 (Nat.ltb_ge (d_ + k) d_)) by lia. reflexivity. }
    rewrite B1, B2 by lia.
    replace n with (d_ + ((h - d_) + d_)) at 5 by lia.
    rewrite !seq_app, !map_app, !(sum_app op e op_assoc op_e_l). cbn [plus]. replace (d_ + (h - d_)) with h by lia.
    rewrite <- !op_assoc. f_equal. apply op_comm.
  Qed.

  Hypothesis few_waits : (Z.of_nat (cm M) < 2 ^ 31)%Z.

  Theorem half_value c0 t s c x : run n prog op send c0 m0 t s -> c < n -> rest s c = [] -> (0 <= x < sz)%Z ->
    mem s (addr 0 x) = sum (map (cop x) (seq 0 n)).
  Proof.
    intros R Hc Re Hx. rewrite <- half_sum.
    assert (G : forall i x', h <= i * 1 -> uH i x' = e).
    { intros i x' L. unfold uH. rewrite (proj2 (Nat.ltb_ge i h)); auto. lia. }
    exact (asm_value n h ts sz 1 fac F false true 3 wsH actsH lenH ts_pos sz_pos sz_ts Nat.lt_0_1 fac_pos h_pos F_pos h_v wholeH
      shapeH fastH H_len H_n preH_cells preH_know preH_race preH_sep op e send op_assoc op_e_l opH_e_r uH m0
      G (Nat.mod_1_r h) half_init few_waits c0 t s c x R Hc Re Hx).
  Qed.

  Lemma half_prog_ok c : c < n -> okb n c false (prog c).
  Proof. exact (ok_iprog n ws acts wsH_n M c). Qed.
  Lemma half_K c : c < n -> nW (prog c) = cm M.
  Proof. exact (nW_iprog n len ws acts wsH_len wsH_n M c). Qed.
  Lemma half_race : race_free n prog.
  Proof.
    exact (asm_race_free n h ts sz 1 fac F false true 3 wsH actsH lenH ts_pos sz_pos sz_ts Nat.lt_0_1 fac_pos h_pos F_pos h_v wholeH
      shapeH fastH H_len H_n preH_cells preH_know preH_race preH_sep).
  Qed.
  Lemma half_lock x : (0 <= x < sz)%Z -> lock n prog (cm M) op send m0 (addr 0 x) = sum (map (cop x) (seq 0 n)).
  Proof.
    intros Hx. rewrite <- half_sum.
    assert (G : forall i x', h <= i * 1 -> uH i x' = e).
    { intros i x' L. unfold uH. rewrite (proj2 (Nat.ltb_ge i h)); auto. lia. }
    exact (asm_lock n h ts sz 1 fac F false true 3 wsH actsH lenH ts_pos sz_pos sz_ts Nat.lt_0_1 fac_pos h_pos F_pos h_v wholeH
      shapeH fastH H_len H_n preH_cells preH_know preH_race preH_sep op e send op_assoc op_e_l opH_e_r uH m0
      G (Nat.mod_1_r h) half_init x Hx).
  Qed.
  Lemma half_final c x d j k s1 : c < n -> (0 <= x < sz)%Z -> d < n -> d <> c ->
    In (k, addr 0 x, s1) (segm (prog d) j) -> knows prog c (cm M) d j.
  Proof.
    exact (asm_final n h ts sz 1 fac F false true 3 wsH actsH lenH ts_pos sz_pos sz_ts Nat.lt_0_1 fac_pos h_pos F_pos h_v wholeH
      shapeH fastH H_len H_n preH_cells preH_know preH_race preH_sep c x d j k s1).
  Qed.

  Lemma knows_through (pr : nat -> list micro) d j x m : knows pr d j x m -> forall c m', knows pr x m c m' -> knows pr d j c m'.
  Proof.
    induction 1 as [c j m L|c j x E|c j x d m E K IH|c j j' d m K IH L|c j d m m1 K IH L]; intros c' m' Q.
    - eapply k_mono; [exact Q|lia].
    - eapply k_trans; eauto.
    - eapply k_trans; eauto.
    - eapply k_mono; [apply IH; exact Q|auto].
    - apply IH. eapply k_mono; eauto.
  Qed.

  (* in a pair one of the two cores has something to add up *)
  Lemma half_adds c : c < n -> paired c = true -> exists q, (q = c \/ q = partner c) /\ q < n /\ low q < h /\
    touches actsH q 2 (addr (low q) 0).
  Proof.
    intros Hc Pc. destruct (piece_cover sz ts 2 ts_pos (Z.lt_le_incl _ _ sz_pos) sz_ts Nat.lt_0_2 0 ltac:(lia)) as (p & Hp & Hpx).
    assert (Q : exists q, (q = c \/ q = partner c) /\ q < n /\ low q < h /\ paired q = true /\ pc q = p).
    { revert Pc. unfold paired, partner, low, pc. destruct (Nat.ltb_spec c d_) as [L|L].
      - intros _. destruct p as [|[|p]]; [| |lia].
        + exists c. destruct (Nat.ltb_spec c d_); [|lia]. cbn [orb]. repeat split; auto. lia.
        + exists (c + h). destruct (Nat.ltb_spec (c + h) d_); [lia|]. destruct (Nat.leb_spec h (c + h)); [|lia].
          repeat split; auto; lia.
      - destruct (Nat.leb_spec h c) as [L2|L2]; [|discriminate]. intros _. destruct p as [|[|p]]; [| |lia].
        + exists (c - h). destruct (Nat.ltb_spec (c - h) d_); [|lia]. cbn [orb]. repeat split; auto; lia.
        + exists c. destruct (Nat.ltb_spec c d_); [lia|]. destruct (Nat.leb_spec h c); [|lia].
          repeat split; auto; lia. }
    destruct Q as (q & Eq & Hq & Lq & Pq & Eqp). exists q. repeat split; auto.
    exists Reduce, (addr (low q) 0), (Shm (addr (low q + h) 0)). split; auto. unfold actsH. cbn [Nat.eqb].
    unfold pacts. rewrite Pq, Eqp. apply in_map_iff. exists 0%Z. split; auto. now apply in_zrange.
  Qed.

  Lemma half_copies c : touches actsH c 0 (addr c 0).
  Proof.
    exists Copy, (addr c 0), (Snd (src 0)). split; auto. unfold actsH, cacts. cbn [Nat.eqb].
    destruct (piece_cover sz ts 1 ts_pos (Z.lt_le_incl _ _ sz_pos) sz_ts Nat.lt_0_1 0 ltac:(lia)) as (p & Hp & Hpx).
    assert (p = 0) by lia. subst p. assert (Ep : pidx 1 c 0 = 0) by (pose proof (Nat.mod_upper_bound c 1); unfold pidx; apply Nat.mod_1_r).
    rewrite Ep, Nat.div_1_r. apply in_map_iff. exists 0%Z. split; auto. apply in_zrange. exact Hpx.
  Qed.

  Lemma half_full c d : c < n -> d < n -> d <> c -> knows prog c (cm M) d (cm 1).
  Proof.
    intros Hc Hd Ne. assert (X0 : (0 <= 0 < sz)%Z) by (split; [reflexivity|exact sz_pos]).
    assert (EH : Hs (F - 1) = h) by (rewrite <- v_h; unfold D; lia).
    destruct (paired d) eqn:Pd.
    - destruct (half_adds d Hd Pd) as (q & Eq & Hq & Lq & T).
      assert (Kq : q <> c -> knows prog c (cm M) q (cm 3)).
      { intros Nq. apply (asm_full n h ts sz 1 fac F false true 3 wsH actsH lenH ts_pos sz_pos sz_ts Nat.lt_0_1 fac_pos h_pos F_pos h_v wholeH
      shapeH fastH H_len H_n preH_cells preH_know preH_race preH_sep c q 2 (low q) 0 Hc Hq Nq); auto. rewrite EH. exact Lq. }
      destruct Eq as [->|Eq].
      + eapply k_down; [apply Kq; auto|]. apply (cum_mono len ws acts). lia.
      + assert (Ep : partner q = d) by (rewrite Eq; now apply partner_self).
        pose proof (pair_wait q 2 Hq ltac:(auto)) as W. rewrite Ep in W.
        destruct (Nat.eq_dec q c) as [E|Nq].
        * rewrite <- E. eapply k_mono; [eapply k_down; [exact W|]|]; apply (cum_mono len ws acts); lia.
        * eapply k_down; [apply (knows_through prog c (cm M) q (cm 3) (Kq Nq) d (cm 2) W)|].
          apply (cum_mono len ws acts). lia.
    - assert (Ld : d < h).
      { unfold paired in Pd. apply orb_false_iff in Pd. destruct Pd as (_ & Pd). apply Nat.leb_gt in Pd. exact Pd. }
      apply (asm_full n h ts sz 1 fac F false true 3 wsH actsH lenH ts_pos sz_pos sz_ts Nat.lt_0_1 fac_pos h_pos F_pos h_v wholeH
      shapeH fastH H_len H_n preH_cells preH_know preH_race preH_sep c d 0 d 0 Hc Hd Ne); auto.
      + rewrite EH. exact Ld.
      + apply half_copies.
  Qed.
End Half.
