(* copyin_method 0: the prefix of the program (two barriers and reduce_copyin) as
   items, and what it establishes. *)
From Verif Require Import Base BarrierModel NodeModel SyncProofs SyncItems TreeProofs TreeKnow NodeCode NodeCopyin NodeLayout NodeItems NodeAsm.
From Coq Require Import Permutation.
Local Open Scope nat_scope.
Local Ltac Zify.zify_post_hook ::= idtac.

(* ---- one item, seen from one address ---- *)
Section OneItem.
  Context (n : nat) (acts : nat -> nat -> list act) {V : Type} (op : V -> V -> V) (send : nat -> Z -> V).
  Notation adst a := (snd (fst (a : act))).

  Lemma seg_other c l m y : (forall a, In a l -> adst a <> y) -> segment op send c l m y = m y.
  Proof.
    unfold segment. revert m. induction l as [|a l IH]; intros m Q; [reflexivity|]. cbn [fold_left].
    rewrite IH by (intros; apply Q; simpl; auto). unfold effect. rewrite upd_other; auto.
    apply not_eq_sym. apply Q. simpl. auto.
  Qed.

  Definition sval (c : nat) (s : operand) (m : Z -> V) : V := match s with Shm a => m a | Snd a => send c a end.

  Lemma seg_one c l1 k y s l2 m : (forall a, In a (l1 ++ l2) -> adst a <> y) ->
    (forall b a, s = Shm b -> In a l1 -> adst a <> b) ->
    segment op send c (l1 ++ (k, y, s) :: l2) m y =
      match k with Copy => sval c s m | Reduce => op (m y) (sval c s m) end.
  Proof.
    intros Q Qs.
    assert (E0 : segment op send c (l1 ++ (k, y, s) :: l2) m =
                 segment op send c l2 (effect op send c k y s (segment op send c l1 m))).
    { unfold segment. now rewrite fold_left_app. }
    rewrite E0.
    rewrite seg_other by (intros; apply Q, in_or_app; auto). unfold effect. rewrite upd_same.
    rewrite (seg_other c l1 m y) by (intros; apply Q, in_or_app; auto).
    assert (E : match s with Shm a => segment op send c l1 m a | Snd a => send c a end = sval c s m).
    { destruct s; [|reflexivity]. cbn. apply seg_other. intros a0 I. apply (Qs a); auto. }
    rewrite E. reflexivity.
  Qed.

  Lemma phase_other i m y : (forall c a, c < n -> In a (acts c i) -> adst a <> y) ->
    item_phase n acts op send i m y = m y.
  Proof.
    intros Q. unfold item_phase.
    assert (G : forall l m, (forall c, In c l -> c < n) ->
      fold_left (fun m c => segment op send c (acts c i) m) l m y = m y).
    { induction l as [|c l IH]; intros m' L; [reflexivity|]. cbn [fold_left]. rewrite IH by (intros; apply L; simpl; auto).
      apply seg_other. intros a I. apply (Q c a); auto. apply L. simpl. auto. }
    apply G. intros c I. apply in_seq in I. lia.
  Qed.

  Lemma phase_one i m c0 l1 k y s l2 : c0 < n -> acts c0 i = l1 ++ (k, y, s) :: l2 ->
    (forall a, In a (l1 ++ l2) -> adst a <> y) ->
    (forall c a, c < n -> c <> c0 -> In a (acts c i) -> adst a <> y) ->
    (forall b c a, s = Shm b -> c < n -> In a (acts c i) -> adst a <> b) ->
    item_phase n acts op send i m y = match k with Copy => sval c0 s m | Reduce => op (m y) (sval c0 s m) end.
  Proof.
    intros Hc E Q1 Q2 Q3. unfold item_phase.
    replace n with (c0 + (1 + (n - c0 - 1))) by lia. rewrite (seq_app c0), fold_left_app. cbn [plus seq fold_left].
    set (f := fun (m : Z -> V) c => segment op send c (acts c i) m).
    assert (G : forall l m y', (forall c a, In c l -> In a (acts c i) -> adst a <> y') -> fold_left f l m y' = m y').
    { induction l as [|c l IH]; intros m' y' L; [reflexivity|]. cbn [fold_left]. rewrite IH by (intros; eapply L; simpl; eauto).
      apply seg_other. intros a I. eapply L; simpl; eauto. }
    rewrite G.
    2:{ intros c a Ic Ia. apply in_seq in Ic. apply (Q2 c a); auto; lia. }
    rewrite E. rewrite seg_one; auto.
    2:{ intros b a Es Ia. apply (Q3 b c0 a Es Hc). rewrite E. apply in_or_app. auto. }
    assert (E1 : fold_left f (seq 0 c0) m y = m y).
    { apply G. intros c a Ic Ia. apply in_seq in Ic. apply (Q2 c a); auto; lia. }
    assert (E2 : sval c0 s (fold_left f (seq 0 c0) m) = sval c0 s m).
    { destruct s; [|reflexivity]. cbn. apply G. intros c a' Ic Ia. apply in_seq in Ic. apply (Q3 a c a' eq_refl); auto. lia. }
    now rewrite E1, E2.
  Qed.
End OneItem.

Lemma grp_lt n g c r : 0 < g -> n mod g = 0 -> c < n -> r < g -> c / g * g + r < n.
Proof.
  intros Hg Hn Hc Hr. pose proof (div_mod_eq n g Hg) as E. rewrite Hn in E.
  assert (c / g < n / g).
  { apply Nat.div_lt_upper_bound; [lia|]. lia. }
  apply Nat.lt_le_trans with (S (c / g) * g); [simpl; lia|].
  apply Nat.le_trans with (n / g * g); [apply Nat.mul_le_mono_r; lia|lia].
Qed.

Section Zero.
  Context (n : nat) (counts : list Z) (fracs : list nat) (ts : Z) (g : nat) (fac : nat -> nat) (F : nat) (fast : bool).
  Notation sz := (total counts).
  Hypothesis counts_nn : Forall (fun z => (0 <= z)%Z) counts.
  Hypothesis fracs_perm : Permutation fracs (seq 0 (length counts)).
  Hypothesis ts_pos : (0 < ts)%Z.
  Hypothesis sz_pos : (0 < sz)%Z.
  Hypothesis sz_ts : exists q, (sz = q * ts)%Z.
  Hypothesis g_pos : 0 < g.
  Hypothesis fac_pos : forall s, 0 < fac s.
  Hypothesis n_pos : 0 < n.
  Hypothesis F_pos : 0 < F.
  Hypothesis n_g : n mod g = 0.
  Notation Hs := (H fac).
  Notation Ds := (D g fac).
  Notation v := (Ds (F - 1)).
  Hypothesis n_v : n <= v.
  Hypothesis whole : v = n \/ (sz < 128)%Z.
  Hypothesis fast_sz : fast = true -> (sz <= 56)%Z.
  Notation addr := (iaddr fast sz).
  Notation cacts := (cacts counts fracs ts g fast).
  Notation src := (src counts fracs).

  Definition wsP (c i : nat) : list nat :=
    if i =? 0 then diss n c ++ diss n c else if i <? g then [pred_ g c] else gdiss g c.
  Definition actsP (c i : nat) : list act := if i <? g then cacts c i else [].
  Definition lenP (i : nat) : nat := if i =? 0 then clg n + clg n else if i <? g then 1 else clg g.

  Lemma P_len c i : c < n -> i <= g -> length (wsP c i) = lenP i.
  Proof.
    intros _ _. unfold wsP, lenP, diss, gdiss, rounds. destruct (i =? 0); [|destruct (i <? g)];
      rewrite ?app_length, ?map_length, ?seq_length; reflexivity.
  Qed.

  Lemma P_n c i x : c < n -> i <= g -> In x (wsP c i) -> x < n.
  Proof.
    intros Hc Hi. unfold wsP. destruct (i =? 0); [|destruct (i <? g)].
    - rewrite in_app_iff. intros I. assert (J : In x (diss n c)) by tauto. unfold diss, rounds in J.
      apply in_map_iff in J. destruct J as (e & <- & _). apply Nat.mod_upper_bound. lia.
    - intros [<-|[]]. unfold pred_. apply grp_lt; auto. apply Nat.mod_upper_bound. lia.
    - unfold gdiss, rounds. intros J. apply in_map_iff in J. destruct J as (e & <- & _). apply grp_lt; auto.
      apply Nat.mod_upper_bound. lia.
  Qed.

  Notation shape0 := (or_introl (conj (eq_refl n) (eq_refl false)) : (n = n /\ false = false) \/ (n <= n /\ v = n /\ false = true)).
  Notation ws := (aws n ts sz g fac F false g wsP).
  Notation acts := (aacts n ts sz g fac F fast g actsP).
  Notation len := (alen n ts sz g fac F false g lenP).
  Notation M := (g + F + 2).
  Notation prog := (iprog ws acts M).
  Notation cm := (cum len).

  Lemma ws_len c i : c < n -> length (ws c i) = len i.
  Proof. apply (aws_len n n ts sz g fac F false g wsP lenP); auto. apply P_len. Qed.
  Lemma ws_n c i x : c < n -> In x (ws c i) -> x < n.
  Proof. apply (aws_n n n ts sz g fac F fast false g wsP actsP lenP); auto; [apply P_len|apply P_n]. Qed.
  Lemma len_P i : i <= g -> len i = lenP i.
  Proof. intros Hi. unfold alen. now rewrite (proj2 (Nat.leb_le _ _) Hi). Qed.
  Lemma ws_P c i : i <= g -> ws c i = wsP c i.
  Proof. intros Hi. unfold aws. now rewrite (proj2 (Nat.leb_le _ _) Hi). Qed.

  (* ---- who touches what ---- *)
  Lemma in_actsP c i k d s : i <= g -> In (k, d, s) (actsP c i) ->
    i < g /\ exists x p, p < g /\ k = (if i =? 0 then Copy else Reduce) /\ d = addr (c / g) x /\ s = Snd (src x) /\
      (0 <= x < sz)%Z /\ (pst sz ts g p <= x < pst sz ts g p + psz sz ts g p)%Z /\ c mod g = worker g p i.
  Proof.
    intros Hi I. unfold actsP in I. destruct (Nat.ltb_spec i g) as [L|L]; [|destruct I]. split; auto.
    destruct (in_cacts counts fracs ts g fast counts_nn ts_pos sz_ts g_pos c i k d s I) as (x & A1 & A2 & A3 & A4 & A5).
    assert (Hp : pidx g c i < g) by (apply Nat.mod_upper_bound; lia).
    exists x, (pidx g c i). refine (conj Hp (conj A1 (conj A2 (conj A3 (conj A4 (conj A5 _)))))). apply (pidx_worker g g_pos c i (pidx g c i)); auto.
  Qed.

  Lemma touchesP c i a : i <= g -> touches actsP c i a ->
    i < g /\ exists x p, p < g /\ a = addr (c / g) x /\
      (0 <= x < sz)%Z /\ (pst sz ts g p <= x < pst sz ts g p + psz sz ts g p)%Z /\ c mod g = worker g p i.
  Proof.
    intros Hi (k & d & s & I & E). destruct (in_actsP c i k d s Hi I) as (L & x & p & Hp & A1 & A2 & A3 & A4 & A5 & A6).
    split; auto. exists x, p. destruct E as [E|E]; [|congruence]. subst. auto 10.
  Qed.

  Lemma real_inst c : c < n -> c / g * g < n.
  Proof. intros Hc. pose proof (grp_lt n g c 0 g_pos n_g Hc g_pos). lia. Qed.

  Lemma pre_cells c i a : c < n -> i <= g -> touches actsP c i a ->
    exists inst x, a = addr inst x /\ (0 <= x < sz)%Z /\ (inst < Hs (F - 1) -> inst * g < n).
  Proof.
    intros Hc Hi T. destruct (touchesP c i a Hi T) as (_ & x & p & _ & E & Hx & _).
    exists (c / g), x. split; auto. split; auto. intros _. now apply real_inst.
  Qed.

  (* ---- the chain of the workers of a piece ---- *)
  Lemma block_div inst r : r < g -> (inst * g + r) / g = inst /\ (inst * g + r) mod g = r.
  Proof.
    intros Hr. rewrite Nat.add_comm. rewrite Nat.div_add, Nat.mod_add by lia. rewrite Nat.div_small, Nat.mod_small by auto.
    split; lia.
  Qed.

  Lemma pred_worker inst p j : pred_ g (inst * g + worker g p (S j)) = inst * g + worker g p j.
  Proof.
    unfold pred_. pose proof (worker_lt g g_pos p (S j)) as Hw. destruct (block_div inst _ Hw) as (-> & ->).
    f_equal. unfold worker. rewrite Nat.add_mod_idemp_l by lia.
    replace (p + 1 + S j + (g - 1)) with (p + 1 + j + 1 * g) by lia. apply Nat.mod_add. lia.
  Qed.

  Lemma chain inst p : inst * g < n -> forall j, j < g -> forall i, i < j ->
    knows prog (inst * g + worker g p j) (cm (S j)) (inst * g + worker g p i) (cm (S i)).
  Proof.
    intros Hi. 
    assert (In_n : forall r, r < g -> inst * g + r < n).
    { intros r Hr. pose proof (grp_lt n g (inst * g) r g_pos n_g Hi Hr) as Q. rewrite Nat.div_mul in Q by lia. exact Q. }
    induction j as [|j IH]; intros Hj i Hij; [lia|].
    assert (Lj : 0 < len (S j)).
    { rewrite len_P by lia. unfold lenP. cbn [Nat.eqb]. rewrite (proj2 (Nat.ltb_lt _ _)) by lia. lia. }
    assert (Iw := item_wait n len ws acts ws_len ws_n M (inst * g + worker g p (S j)) (S j) 0
             (In_n _ (worker_lt g g_pos p (S j))) ltac:(lia) Lj).
    assert (Ew : nth 0 (ws (inst * g + worker g p (S j)) (S j)) 0 = inst * g + worker g p j).
    { rewrite ws_P by lia. unfold wsP. cbn [Nat.eqb]. rewrite (proj2 (Nat.ltb_lt _ _)) by lia. cbn [nth]. apply pred_worker. }
    rewrite Ew in Iw. destruct Iw as (I1 & I2).
    destruct (Nat.eq_dec i j) as [->|N].
    - exact I1.
    - apply I2. apply IH; lia.
  Qed.

  Lemma pre_race c d i j k1 d1 s1 k2 d2 s2 : c < n -> d < n -> c <> d -> i <= g -> j <= g ->
    In (k1, d1, s1) (actsP c i) -> In (k2, d2, s2) (actsP d j) -> clash k1 d1 s1 k2 d2 s2 ->
    knows prog d (cm (S j)) c (cm (S i)) \/ knows prog c (cm (S i)) d (cm (S j)).
  Proof.
    intros Hc Hd Ne Hi Hj I J Cl.
    destruct (in_actsP c i _ _ _ Hi I) as (Li & x & p & Hp & A1 & A2 & A3 & A4 & A5 & A6).
    destruct (in_actsP d j _ _ _ Hj J) as (Lj & y & q & Hq & B1 & B2 & B3 & B4 & B5 & B6).
    assert (E : d1 = d2) by (destruct Cl as [E|[E|E]]; [exact E|congruence|congruence]).
    rewrite A2, B2 in E. destruct (iaddr_inj fast sz fast_sz _ _ _ _ A4 B4 E) as (E1 & E2). subst y.
    assert (p = q).
    { apply (piece_unique sz ts g ts_pos (Z.lt_le_incl _ _ sz_pos) sz_ts g_pos x p q Hp Hq A5 B5). }
    subst q. pose proof (real_inst c Hc) as Hr.
    assert (Ec : c = c / g * g + worker g p i) by (rewrite <- A6; apply div_mod_eq; auto).
    assert (Ed : d = c / g * g + worker g p j) by (rewrite E1, <- B6; apply div_mod_eq; auto).
    destruct (lt_eq_lt_dec i j) as [[L|L]|L].
    - left. pose proof (chain (c / g) p Hr j Lj i L) as K. rewrite <- Ec, <- Ed in K. exact K.
    - subst j. congruence.
    - right. pose proof (chain (c / g) p Hr i Li j L) as K. rewrite <- Ec, <- Ed in K. exact K.
  Qed.

  Lemma pre_know inst y x d i : inst * g + y < n -> y < g -> region ts sz g fac 0 y x ->
    d < n -> d <> inst * g + y -> i <= g -> touches actsP d i (addr inst x) ->
    knows prog (inst * g + y) (cm (S g)) d (cm (S i)).
  Proof.
    intros Hi Hy R Hd Ne Hig T.
    assert (Hx : (0 <= x < sz)%Z).
    { destruct (C_in ts sz g fac ts_pos (Z.lt_le_incl _ _ sz_pos) sz_ts g_pos fac_pos 0 y) as (Q1 & Q2 & Q3).
      - unfold D. cbn [H]. lia.
      - unfold region in R. lia. }
    destruct (touchesP d i _ Hig T) as (L & x' & p & Hp & E & Hx' & Hpc & Ew).
    destruct (iaddr_inj fast sz fast_sz _ _ _ _ Hx Hx' E) as (E1 & _).
    assert (Ed : d = inst * g + d mod g) by (rewrite E1; apply div_mod_eq; auto).
    assert (Hin : inst * g < n) by lia.
    assert (In_n : forall r, r < g -> inst * g + r < n).
    { intros r Hr. pose proof (grp_lt n g (inst * g) r g_pos n_g Hin Hr) as Q. rewrite Nat.div_mul in Q by lia. exact Q. }
    assert (Hdm : d mod g < g) by (apply Nat.mod_upper_bound; lia).
    assert (Dm := disseminate n len ws acts ws_len ws_n M (fun t => inst * g + t) g g ltac:(lia) g_pos In_n).
    assert (W1 : clg g <= len g).
    { rewrite len_P by lia. unfold lenP. rewrite (proj2 (Nat.eqb_neq _ _)), Nat.ltb_irrefl by lia. auto. }
    specialize (Dm W1). cbv beta in Dm.
    assert (W2 : forall t e, t < g -> e < clg g -> nth e (ws (inst * g + t) g) 0 = inst * g + (t + 2 ^ e) mod g).
    { intros t e Ht He. rewrite ws_P by lia. unfold wsP. rewrite (proj2 (Nat.eqb_neq _ _)), Nat.ltb_irrefl by lia.
      unfold gdiss. rewrite <- (app_nil_r (rounds _ _)), nth_rounds by auto.
      destruct (block_div inst t Ht) as (-> & ->). reflexivity. }
    specialize (Dm W2 y (d mod g) Hy Hdm). destruct Dm as (_ & D2).
    rewrite <- Ed in D2. eapply k_down; [apply D2; auto|]. apply (cum_mono len ws acts). lia.
  Qed.

  Lemma pre_sep c i : c < n -> 0 < i -> i <= g -> lenP i = 0 -> actsP c i = [].
  Proof.
    intros _ Hi Hg. unfold lenP, actsP. destruct (Nat.eqb_spec i 0); [lia|]. destruct (i <? g); [discriminate|auto].
  Qed.

  (* ---- the text ---- *)
  Lemma zero_code c : c < n ->
    micro_code (socket_barrier (Z.of_nat n) (Z.of_nat c) ++ socket_barrier (Z.of_nat n) (Z.of_nat c) ++
      reduce_copyin counts fracs (Z.rem (Z.of_nat c) (Z.of_nat g)) ts (Z.quot (Z.of_nat c) (Z.of_nat g))
        (Z.of_nat (length (group_ranks (Z.of_nat n) (Z.of_nat g) (Z.of_nat c))))
        (group_ranks (Z.of_nat n) (Z.of_nat g) (Z.of_nat c)) fast ++
      reduce_copies (Z.of_nat n) (factors_ g fac F) sz ts (Z.of_nat c) fast false) = prog c.
  Proof.
    intros Hc. rewrite <- (asm_code n n ts sz g fac F fast false g wsP actsP lenP ts_pos sz_pos sz_ts g_pos fac_pos n_pos F_pos n_v whole
      shape0 P_len P_n pre_cells pre_know pre_race pre_sep c Hc).
    rewrite group_ranks_eq by auto. rewrite map_length. unfold grp at 1. rewrite map_length, seq_length.
    rewrite copyin_code by auto. rewrite sb_eq by auto. rewrite !micro_app, !micro_bar.
    rewrite !app_assoc. f_equal.
    replace (S g) with (1 + (g - 1) + 1) by lia. rewrite !seq_app, !flat_map_app. cbn [seq flat_map plus].
    rewrite !app_nil_r. f_equal; [f_equal|].
    - unfold item, wsP, actsP. cbn [Nat.eqb]. rewrite (proj2 (Nat.ltb_lt 0 g) g_pos).
      destruct (cmoves_acts counts fracs ts g fast counts_nn fracs_perm ts_pos sz_ts g_pos c 0) as (C1 & C2).
      rewrite micro_moves, C2 by auto. unfold pairs. rewrite flat_map_app, <- app_assoc. reflexivity.
    - assert (G : forall l, Forall (fun i => 0 < i < g) l ->
        micro_code (flat_map (chunk counts fracs ts g fast c) l) = flat_map (item wsP actsP c) l).
      { induction 1 as [|i l Hi _ IH]; [reflexivity|]. cbn [flat_map]. rewrite micro_app, IH. f_equal.
        unfold chunk. rewrite micro_app, micro_bar.
        destruct (cmoves_acts counts fracs ts g fast counts_nn fracs_perm ts_pos sz_ts g_pos c i) as (C1 & C2).
        rewrite micro_moves, C2 by auto. unfold item, wsP, actsP.
        rewrite (proj2 (Nat.eqb_neq _ _)), (proj2 (Nat.ltb_lt _ _)) by lia. reflexivity. }
      apply G. apply Forall_forall. intros i I. apply in_seq in I. lia.
    - replace (S (g - 1)) with g by lia. unfold item, wsP, actsP.
      rewrite (proj2 (Nat.eqb_neq _ _)), Nat.ltb_irrefl by lia. cbn [map]. now rewrite app_nil_r.
  Qed.

  (* ---- the values ---- *)
  Context {V : Type} (op : V -> V -> V) (e : V) (send : nat -> Z -> V) (m0 : Z -> V).
  Hypothesis op_assoc : forall a b c, op a (op b c) = op (op a b) c.
  Hypothesis op_comm : forall a b, op a b = op b a.
  Hypothesis op_e_l : forall a, op e a = a.

  Definition sum (l : list V) : V := fold_right op e l.

  Lemma op_e_r a : op a e = a.
  Proof. rewrite op_comm. apply op_e_l. Qed.

  Lemma sum_app l l' : sum (l ++ l') = op (sum l) (sum l').
  Proof. unfold sum. induction l as [|a l IH]; simpl; [now rewrite op_e_l|]. now rewrite IH, op_assoc. Qed.

  Lemma sum_perm l l' : Permutation l l' -> sum l = sum l'.
  Proof.
    unfold sum. induction 1; simpl; auto; [congruence| |congruence].
    rewrite !op_assoc. now rewrite (op_comm y x).
  Qed.

  Definition cop (x : Z) (c : nat) : V := send c (src x).
  Definition u (i : nat) (x : Z) : V :=
    if i * g <? n then sum (map (fun t => cop x (i * g + t)) (seq 0 g)) else e.

  (* the phase of item i at byte x of a real instance *)
  Lemma phase_real i j p x m : i * g < n -> j < g -> p < g -> (0 <= x < sz)%Z ->
    (pst sz ts g p <= x < pst sz ts g p + psz sz ts g p)%Z ->
    item_phase n actsP op send j m (addr i x) =
    (if j =? 0 then cop x (i * g + worker g p j) else op (m (addr i x)) (cop x (i * g + worker g p j))).
  Proof.
    intros Hi Hj Hp Hx Hpx.
    set (c0 := i * g + worker g p j).
    assert (Hw : worker g p j < g) by now apply worker_lt.
    destruct (block_div i _ Hw) as (B1 & B2). fold c0 in B1, B2.
    assert (Hc0 : c0 < n).
    { pose proof (grp_lt n g (i * g) (worker g p j) g_pos n_g Hi Hw) as Q. rewrite Nat.div_mul in Q by lia. exact Q. }
    assert (Ep : pidx g c0 j = p) by (apply pidx_worker; auto).
    set (k := if j =? 0 then Copy else Reduce).
    assert (Ix : In x (zrange (pst sz ts g p) (pst sz ts g p + psz sz ts g p))) by now apply in_zrange.
    pose proof (NoDup_zrange (pst sz ts g p) (pst sz ts g p + psz sz ts g p)) as ND.
    apply in_split in Ix. destruct Ix as (z1 & z2 & Ez). rewrite Ez in ND.
    assert (Hz : forall z, In z (z1 ++ z2) -> z <> x /\ (0 <= z < sz)%Z).
    { intros z Iz. split.
      - intros ->. apply NoDup_remove_2 in ND. contradiction.
      - assert (J : In z (zrange (pst sz ts g p) (pst sz ts g p + psz sz ts g p))).
        { rewrite Ez. apply in_app_iff in Iz. apply in_app_iff. simpl. tauto. }
        apply in_zrange in J.
        destruct (piece_in sz ts g ts_pos (Z.lt_le_incl _ _ sz_pos) sz_ts g_pos p Hp). lia. }
    set (mk := fun z => (k, addr (c0 / g) z, Snd (src z)) : act).
    rewrite (phase_one n actsP op send j m c0 (map mk z1) k (addr i x) (Snd (src x)) (map mk z2)).
    - unfold k, cop. cbn [sval]. destruct (j =? 0); reflexivity.
    - exact Hc0.
    - unfold actsP. rewrite (proj2 (Nat.ltb_lt _ _) Hj). unfold NodeCopyin.cacts. rewrite Ep. fold k. fold mk.
      rewrite Ez, map_app. cbn [map]. unfold mk at 2. rewrite B1. reflexivity.
    - intros a Ia. rewrite <- map_app in Ia. apply in_map_iff in Ia. destruct Ia as (z & <- & Iz).
      destruct (Hz z Iz) as (Nz & Rz). cbn [fst snd mk]. intros E.
      apply (iaddr_inj fast sz fast_sz) in E; auto. tauto.
    - intros c a Hc Nc Ia E. destruct a as [[k' d'] s']. cbn [fst snd] in E.
      destruct (in_actsP c j k' d' s' ltac:(lia) Ia) as (_ & x' & p' & Hp' & _ & A2 & _ & A4 & A5 & A6).
      rewrite A2 in E. apply (iaddr_inj fast sz fast_sz) in E; auto. destruct E as (E1 & E2). subst x'.
      assert (p' = p).
      { apply (piece_unique sz ts g ts_pos (Z.lt_le_incl _ _ sz_pos) sz_ts g_pos x p' p Hp' Hp A5 Hpx). }
      subst p'. apply Nc. rewrite (div_mod_eq c g g_pos), E1, A6. reflexivity.
    - intros b c a Es. discriminate.
  Qed.

  Lemma phases_real i p x : i * g < n -> p < g -> (0 <= x < sz)%Z ->
    (pst sz ts g p <= x < pst sz ts g p + psz sz ts g p)%Z -> forall k, k < g ->
    fold_left (fun m j => item_phase n actsP op send j m) (seq 0 (S k)) m0 (addr i x) =
    sum (map (fun j => cop x (i * g + worker g p j)) (seq 0 (S k))).
  Proof.
    intros Hi Hp Hx Hpx. induction k as [|k IH]; intros Hk.
    - cbn [seq fold_left map]. rewrite (phase_real i 0 p x) by auto. cbn. now rewrite op_e_r.
    - rewrite seq_S, fold_left_app, map_app, sum_app. cbn [fold_left plus map].
      rewrite (phase_real i (S k) p x) by (auto; lia). rewrite IH by lia. cbn [Nat.eqb]. unfold sum at 3. cbn [fold_right].
      now rewrite op_e_r.
  Qed.

  Lemma worker_perm p : Permutation (map (worker g p) (seq 0 g)) (seq 0 g).
  Proof.
    apply NoDup_Permutation_bis.
    - assert (G : forall l, NoDup l -> (forall i, In i l -> i < g) -> NoDup (map (worker g p) l)).
      { induction 1 as [|i l Hi _ IH]; intros Q; [constructor|]. cbn [map]. constructor.
        - intros I. apply in_map_iff in I. destruct I as (j & E & Ij).
          apply (worker_inj g g_pos) in E; [subst; contradiction|apply Q; simpl; auto|apply Q; simpl; auto].
        - apply IH. intros j Ij. apply Q. simpl. auto. }
      apply G; [apply seq_NoDup|]. intros i I. apply in_seq in I. lia.
    - rewrite map_length. lia.
    - intros y I. apply in_map_iff in I. destruct I as (i & <- & _). apply in_seq. pose proof (worker_lt g g_pos p i). lia.
  Qed.

  Hypothesis ghost_e : forall i x, n <= i * g -> i < Hs (F - 1) -> (0 <= x < sz)%Z -> m0 (addr i x) = e.

  Lemma zero_init i x : i < Hs (F - 1) -> (0 <= x < sz)%Z ->
    fold_left (fun m j => item_phase n actsP op send j m) (seq 0 (S g)) m0 (addr i x) = u i x.
  Proof.
    intros Hi Hx. unfold u. destruct (Nat.ltb_spec (i * g) n) as [L|L].
    - destruct (piece_cover sz ts g ts_pos (Z.lt_le_incl _ _ sz_pos) sz_ts g_pos x Hx) as (p & Hp & Hpx).
      rewrite seq_S, fold_left_app. cbn [fold_left plus]. rewrite phase_other.
      + pose proof (phases_real i p x L Hp Hx Hpx (g - 1) ltac:(lia)) as Q. replace (S (g - 1)) with g in Q by lia.
        rewrite Q. rewrite <- (map_map (worker g p) (fun t => cop x (i * g + t))).
        apply sum_perm. apply Permutation_map. apply worker_perm.
      + intros c a _ I. unfold actsP in I. rewrite Nat.ltb_irrefl in I. destruct I.
    - rewrite <- (ghost_e i x L Hi Hx).
      assert (G : forall l m, (forall j, In j l -> j <= g) ->
        fold_left (fun m j => item_phase n actsP op send j m) l m (addr i x) = m (addr i x)).
      { induction l as [|j l IH]; intros m Q; [reflexivity|]. cbn [fold_left].
        rewrite IH by (intros; apply Q; simpl; auto). apply phase_other. intros c a Hc I E. destruct a as [[k' d'] s'].
        cbn [fst snd] in E.
        destruct (in_actsP c j k' d' s' ltac:(apply Q; simpl; auto) I) as (_ & x' & p' & Hp' & _ & A2 & _ & A4 & _).
        rewrite A2 in E. apply (iaddr_inj fast sz fast_sz) in E; auto. destruct E as (E1 & _). subst i.
        pose proof (real_inst c Hc). lia. }
      apply G. intros j I. apply in_seq in I. lia.
  Qed.

  Lemma bsum_none lo cnt x : (forall i, lo <= i < lo + cnt -> u i x = e) -> bsum op e u lo cnt x = e.
  Proof.
    intros Q. unfold bsum.
    assert (G : forall l, (forall i, In i l -> u i x = e) -> fold_right op e (map (fun i => u i x) l) = e).
    { induction l as [|i l IH]; simpl; intros Q'; auto. rewrite (Q' i), IH by auto. apply op_e_l. }
    apply G. intros i I. apply in_seq in I. apply Q. lia.
  Qed.

  Lemma zero_sum x : bsum op e u 0 (Hs (F - 1)) x = sum (map (cop x) (seq 0 n)).
  Proof.
    pose proof (div_mod_eq n g g_pos) as E. rewrite n_g in E.
    assert (Hq : n / g <= Hs (F - 1)).
    { apply Nat.div_le_upper_bound; [lia|]. exact n_v. }
    replace (Hs (F - 1)) with (n / g + (Hs (F - 1) - n / g)) by lia.
    rewrite (bsum_app op e op_assoc op_e_l). rewrite (bsum_none (0 + n / g)).
    - rewrite op_e_r.
      assert (G : forall k, k <= n / g -> bsum op e u 0 k x = sum (map (cop x) (seq 0 (k * g)))).
      { induction k as [|k IH]; intros Hk; [reflexivity|].
        replace (S k) with (k + 1) by lia. rewrite (bsum_app op e op_assoc op_e_l), IH by lia.
        replace ((k + 1) * g) with (k * g + g) by lia. rewrite seq_app, map_app, sum_app. f_equal.
        unfold bsum. cbn [plus seq map fold_right]. rewrite op_e_r. unfold u.
        rewrite (proj2 (Nat.ltb_lt _ _)).
        - f_equal. rewrite <- (map_map (fun t => k * g + t) (cop x)). f_equal.
          clear. generalize (k * g). intros a. assert (Q : forall m b, map (fun t => a + t) (seq b m) = seq (a + b) m).
          { induction m as [|m IH]; intros b; simpl; auto. rewrite IH. f_equal. f_equal. lia. }
          rewrite Q. f_equal. lia.
        - apply Nat.lt_le_trans with (S k * g); [simpl; lia|].
          apply Nat.le_trans with (n / g * g); [apply Nat.mul_le_mono_r; lia|lia]. }
      rewrite G by lia. do 3 f_equal. lia.
    - intros i Hi. unfold u. rewrite (proj2 (Nat.ltb_ge _ _)); auto.
      apply Nat.le_trans with (n / g * g); [lia|]. apply Nat.mul_le_mono_r. lia.
  Qed.

  Hypothesis few_waits : (Z.of_nat (cm M) < 2 ^ 31)%Z.

  Theorem zero_value c0 t s c x : run n prog op send c0 m0 t s -> c < n -> rest s c = [] -> (0 <= x < sz)%Z ->
    mem s (addr 0 x) = sum (map (cop x) (seq 0 n)).
  Proof.
    intros R Hc Re Hx. rewrite <- zero_sum.
    apply (asm_value n n ts sz g fac F fast false g wsP actsP lenP ts_pos sz_pos sz_ts g_pos fac_pos n_pos F_pos n_v whole
      shape0 fast_sz P_len P_n pre_cells pre_know pre_race pre_sep op e send op_assoc op_e_l op_e_r u m0
      ltac:(intros i x' L; unfold u; now rewrite (proj2 (Nat.ltb_ge _ _) L)) n_g zero_init few_waits c0 t s c x R Hc Re Hx).
  Qed.

  Lemma zero_ok c : c < n -> okb n c false (prog c).
  Proof. exact (ok_iprog n ws acts ws_n M c). Qed.
  Lemma zero_K c : c < n -> nW (prog c) = cm M.
  Proof. exact (nW_iprog n len ws acts ws_len ws_n M c). Qed.
  Lemma zero_race : race_free n prog.
  Proof.
    exact (asm_race_free n n ts sz g fac F fast false g wsP actsP lenP ts_pos sz_pos sz_ts g_pos fac_pos n_pos F_pos n_v whole
      shape0 fast_sz P_len P_n pre_cells pre_know pre_race pre_sep).
  Qed.
  Lemma zero_lock x : (0 <= x < sz)%Z -> lock n prog (cm M) op send m0 (addr 0 x) = sum (map (cop x) (seq 0 n)).
  Proof.
    intros Hx. rewrite <- zero_sum.
    exact (asm_lock n n ts sz g fac F fast false g wsP actsP lenP ts_pos sz_pos sz_ts g_pos fac_pos n_pos F_pos n_v whole
      shape0 fast_sz P_len P_n pre_cells pre_know pre_race pre_sep op e send op_assoc op_e_l op_e_r u m0
      ltac:(intros i x' L; unfold u; now rewrite (proj2 (Nat.ltb_ge _ _) L)) n_g zero_init x Hx).
  Qed.
  Lemma zero_final c x d j k s1 : c < n -> (0 <= x < sz)%Z -> d < n -> d <> c ->
    In (k, addr 0 x, s1) (segm (prog d) j) -> knows prog c (cm M) d j.
  Proof.
    exact (asm_final n n ts sz g fac F fast false g wsP actsP lenP ts_pos sz_pos sz_ts g_pos fac_pos n_pos F_pos n_v whole
      shape0 fast_sz P_len P_n pre_cells pre_know pre_race pre_sep c x d j k s1).
  Qed.
  Lemma zero_touches c : c < n -> exists i, i < g /\ touches actsP c i (addr (c / g) 0).
  Proof.
    intros Hc. destruct (piece_cover sz ts g ts_pos (Z.lt_le_incl _ _ sz_pos) sz_ts g_pos 0 ltac:(lia)) as (p & Hp & Hpx).
    assert (Ic : In (c mod g) (map (worker g p) (seq 0 g))).
    { eapply Permutation_in; [apply Permutation_sym, worker_perm|]. apply in_seq. pose proof (Nat.mod_upper_bound c g). lia. }
    apply in_map_iff in Ic. destruct Ic as (i & E & Ii). apply in_seq in Ii. exists i. split; [lia|].
    exists (if i =? 0 then Copy else Reduce), (addr (c / g) 0), (Snd (src 0)). split; auto.
    unfold actsP. rewrite (proj2 (Nat.ltb_lt i g)) by lia. unfold NodeCopyin.cacts.
    assert (Ep : pidx g c i = p) by (apply pidx_worker; auto; lia). rewrite Ep.
    apply in_map_iff. exists 0%Z. split; auto. apply in_zrange. exact Hpx.
  Qed.
  Lemma zero_full c d : c < n -> d < n -> d <> c -> knows prog c (cm M) d (cm 1).
  Proof.
    intros Hc Hd Ne. destruct (zero_touches d Hd) as (i & Hi & T).
    eapply k_down.
    - apply (asm_full n n ts sz g fac F fast false g wsP actsP lenP ts_pos sz_pos sz_ts g_pos fac_pos n_pos F_pos n_v whole
      shape0 fast_sz P_len P_n pre_cells pre_know pre_race pre_sep c d i (d / g) 0 Hc Hd Ne); auto.
      + apply Nat.div_lt_upper_bound; [lia|]. apply Nat.lt_le_trans with n; auto.
      + lia.
      + lia.
    - apply (cum_mono len ws acts). lia.
  Qed.
  Lemma zero_ghost c k inst x s1 : c < n -> inst < Hs (F - 1) -> (0 <= x < sz)%Z ->
    In (MAct k (addr inst x) s1) (prog c) -> inst * g < n.
  Proof.
    exact (asm_ghost n n ts sz g fac F fast false g wsP actsP lenP ts_pos sz_pos sz_ts g_pos fac_pos n_pos F_pos n_v whole
      shape0 fast_sz P_len P_n pre_cells pre_know pre_race pre_sep c k inst x s1).
  Qed.
End Zero.
