(* Work in a shared segment followed by the copy to the private receive buffers,
   repeated. *)
From Verif Require Import Base BarrierModel NodeModel SyncProofs SyncItems SyncConcat NodeCode NodeZero SingleModel SyncBank SingleSpec SingleProofs LocalModel SyncRounds.
Local Ltac Zify.zify_post_hook ::= idtac.
Local Open Scope nat_scope.

(* ---- the barrier of all cores ---- *)
Definition full_bar (n c : nat) : list micro := micro_code (socket_barrier (Z.of_nat n) (Z.of_nat c)).

Lemma knows_same n A B d j c m : (forall x, x < n -> B x = A x) -> (forall x, x < n -> okb n x false (B x)) ->
  knows A d j c m -> d < n -> knows B d j c m.
Proof.
  intros S O. induction 1 as [c j m L|c j x E|c j x d m E K IH|c j j' d m K IH L|c j d m m' K IH L]; intros Hc.
  - now constructor.
  - apply k_wait. now rewrite S.
  - rewrite <- S in E by auto. apply k_trans with (x := x); auto. apply IH.
    destruct (okb_waits n c _ false j _ (O c Hc) E) as (y & Hy & Ey). apply Nat2Z.inj in Ey. now subst.
  - eapply k_mono; eauto.
  - eapply k_down; eauto.
Qed.

Section Bar.
  Context (n : nat).
  Hypothesis n_pos : 0 < n.
  Let ws (c i : nat) : list nat := diss n c.
  Let acts (c i : nat) : list act := [].
  Let len (i : nat) : nat := clg n.

  Lemma bdiss_len c i : c < n -> length (ws c i) = len i.
  Proof. intros _. unfold ws, diss, rounds. now rewrite map_length, seq_length. Qed.
  Lemma bdiss_n c i x : c < n -> In x (ws c i) -> x < n.
  Proof.
    intros _. unfold ws, diss, rounds. intros I. apply in_map_iff in I. destruct I as (e & <- & _).
    apply Nat.mod_upper_bound. lia.
  Qed.

  Lemma full_bar_items c : c < n -> full_bar n c = iprog ws acts 1 c.
  Proof.
    intros Hc. unfold full_bar. rewrite sb_eq, micro_bar by auto. unfold iprog. simpl. unfold item. simpl.
    now rewrite !app_nil_r.
  Qed.
  Lemma full_bar_ok c : c < n -> okb n c false (full_bar n c).
  Proof. intros Hc. rewrite full_bar_items by auto. now apply (ok_iprog n ws acts bdiss_n). Qed.
  Lemma full_bar_K c : c < n -> nW (full_bar n c) = clg n.
  Proof.
    intros Hc. rewrite full_bar_items by auto. rewrite (nW_iprog n len ws acts bdiss_len bdiss_n) by auto.
    unfold cum. simpl. unfold len. lia.
  Qed.
  Lemma full_bar_acts c k d s : ~ In (MAct k d s) (full_bar n c).
  Proof.
    unfold full_bar, socket_barrier. intros I. unfold micro_code in I. apply in_flat_map in I. destruct I as (i & Ii & I).
    apply in_flat_map in Ii. destruct Ii as (e & _ & Ie). simpl in Ie.
    destruct Ie as [<-|[<-|[]]]; simpl in I; destruct I as [I|[]]; discriminate.
  Qed.
  Lemma full_bar_knows c d : c < n -> d < n -> c <> d -> knows (full_bar n) d (clg n) c 0.
  Proof.
    intros Hc Hd Ne.
    assert (Q : knows (iprog ws acts 1) d (cum len 1) c (cum len 0)).
    { assert (Dm := disseminate n len ws acts bdiss_len bdiss_n 1 (fun t => t) n 0 Nat.lt_0_1 n_pos (fun t Ht => Ht)).
      destruct (Dm ltac:(auto)) with (t := d) (u := c) as (_ & Q); auto.
      intros t e Ht He. unfold ws, diss.
      unfold rounds. rewrite (nth_indep _ 0 ((fun e => (t + 2 ^ e) mod n) 0)) by (rewrite map_length, seq_length; auto).
      rewrite (map_nth (fun e => (t + 2 ^ e) mod n)). now rewrite seq_nth by auto. }
    unfold cum in Q. simpl in Q. rewrite Nat.add_0_r in Q. unfold len in Q.
    apply (knows_same n _ _ d (clg n) c 0 full_bar_items full_bar_ok Q Hd).
  Qed.
End Bar.

Lemma segm_none l j : (forall k d s, ~ In (MAct k d s) l) -> segm l j = [].
Proof.
  intros H. destruct (segm l j) as [|[[k d] s] r] eqn:E; auto. destruct (H k d s).
  apply (in_segm_micro l k d s j). rewrite E. simpl. auto.
Qed.

Lemma shm_cell_inj b l a b' l' a' : b < 2 -> b' < 2 -> shm_cell b l a = shm_cell b' l' a' -> b = b' /\ l = l' /\ a = a'.
Proof.
  unfold shm_cell. intros Hb Hb' E.
  assert (X : (0 <= 2 * Z.of_nat b + (if l then 1 else 0) < 5)%Z) by (destruct l; lia).
  assert (X' : (0 <= 2 * Z.of_nat b' + (if l' then 1 else 0) < 5)%Z) by (destruct l'; lia).
  destruct (block_unique 5 a a' _ _ X X') as (E1 & E2); [lia|]. subst a'. destruct l, l'; repeat split; try lia.
Qed.
Lemma shm_not_recv b l a n z k c y : b < 2 -> shm_cell b l a <> recv_cell n z k c y.
Proof.
  unfold shm_cell, recv_cell. intros Hb E. 
  assert (X : (0 <= 2 * Z.of_nat b + (if l then 1 else 0) < 5)%Z) by (destruct l; lia).
  destruct (block_unique 5 a ((Z.of_nat k * Z.of_nat n + Z.of_nat c) * z + y) _ 4 X) as (E1 & E2); [lia|lia|].
  destruct l; lia.
Qed.
Lemma recv_cell_inj n z k c y k' c' y' : c < n -> c' < n -> (0 <= y < z)%Z -> (0 <= y' < z)%Z ->
  recv_cell n z k c y = recv_cell n z k' c' y' -> k = k' /\ c = c' /\ y = y'.
Proof.
  unfold recv_cell. intros Hc Hc' Hy Hy' E.
  destruct (block_unique z (Z.of_nat k * Z.of_nat n + Z.of_nat c) (Z.of_nat k' * Z.of_nat n + Z.of_nat c') y y' Hy Hy' ltac:(lia)) as (E1 & E2).
  destruct (block_unique (Z.of_nat n) (Z.of_nat k) (Z.of_nat k') (Z.of_nat c) (Z.of_nat c')) as (E3 & E4); lia.
Qed.
Lemma bank_2 alt k : bank alt k < 2.
Proof. unfold bank. destruct alt; [apply Nat.mod_upper_bound; lia|lia]. Qed.
Lemma bank_next k : bank true k <> bank true (S k).
Proof.
  unfold bank. intros E. pose proof (Nat.div_mod k 2 ltac:(lia)). pose proof (Nat.div_mod (S k) 2 ltac:(lia)).
  pose proof (Nat.mod_upper_bound k 2). lia.
Qed.

Section Local.
  Context (n : nat) (z : Z) (RW : nat) (first alt line : bool) (off : Z) (get : nat -> bool)
          (W : nat -> nat -> list micro).
  Hypothesis n_pos : 0 < n.
  Hypothesis W_ok : forall k c, c < n -> okb n c false (W k c).
  Hypothesis W_R : forall k c, c < n -> nW (W k c) = RW.
  Hypothesis W_race : forall k, race_free n (W k).
  Definition inbank (k : nat) (d : Z) : Prop := exists l a, d = shm_cell (bank alt k) l a.
  Hypothesis W_cells : forall k c k1 d s, c < n -> In (MAct k1 d s) (W k c) ->
    inbank k d /\ (forall a, s = Shm a -> inbank k a).
  Hypothesis W_out : forall k c d j k1 i s1, c < n -> d < n -> c <> d -> (0 <= i < z)%Z -> get d = true ->
    In (k1, shm_cell (bank alt k) line (i + off), s1) (segm (W k c) j) -> knows (W k) d RW c j.
  Hypothesis W_sep : first = true \/ (alt = true /\ forall k c d, c < n -> d < n -> c <> d -> knows (W k) d RW c 0).

  Definition out (k c : nat) : list micro :=
    if get c then map (fun i => MAct Copy (recv_cell n z k c (Z.of_nat i)) (Shm (shm_cell (bank alt k) line (Z.of_nat i + off))))
                      (seq 0 (Z.to_nat z)) else [].
  Definition lead (c : nat) : list micro := if first then full_bar n c else [].
  Definition KL : nat := if first then clg n else 0.
  Definition P (k c : nat) : list micro := lead c ++ W k c ++ out k c.

  Lemma in_out k c k1 d s : In (MAct k1 d s) (out k c) ->
    get c = true /\ k1 = Copy /\ exists i, (0 <= i < z)%Z /\ d = recv_cell n z k c i /\ s = Shm (shm_cell (bank alt k) line (i + off)).
  Proof.
    unfold out. destruct (get c); [|intros []]. intros I. apply in_map_iff in I. destruct I as (i & E & I). apply in_seq in I.
    injection E as <- <- <-. repeat split. exists (Z.of_nat i). repeat split; lia.
  Qed.
  Lemma out_ok k c : okb n c false (out k c).
  Proof. unfold out. destruct (get c); [|reflexivity]. induction (seq 0 (Z.to_nat z)); simpl; auto. Qed.
  Lemma out_K k c : nW (out k c) = 0.
  Proof. unfold out. destruct (get c); [|reflexivity]. induction (seq 0 (Z.to_nat z)); simpl; auto. Qed.
  Lemma lead_ok c : c < n -> okb n c false (lead c).
  Proof. intros Hc. unfold lead. destruct first; [now apply full_bar_ok|reflexivity]. Qed.
  Lemma lead_K c : c < n -> nW (lead c) = KL.
  Proof. intros Hc. unfold lead, KL. destruct first; [now apply full_bar_K|reflexivity]. Qed.
  Lemma lead_acts c k d s : ~ In (MAct k d s) (lead c).
  Proof. unfold lead. destruct first; [apply full_bar_acts|intros []]. Qed.

  Definition R : nat := KL + RW.
  Notation WO k := (fun c => W k c ++ out k c).
  Lemma WO_ok k c : c < n -> okb n c false (W k c ++ out k c).
  Proof. intros Hc. apply okb_app; auto. apply out_ok. Qed.
  Lemma WO_R k c : c < n -> nW (W k c ++ out k c) = RW.
  Proof. intros Hc. rewrite nW_app, W_R, out_K by auto. lia. Qed.
  Lemma P_ok k c : c < n -> okb n c false (P k c).
  Proof. intros Hc. unfold P. apply okb_app; [now apply lead_ok|now apply WO_ok]. Qed.
  Lemma P_R k c : c < n -> nW (P k c) = R.
  Proof. intros Hc. unfold P, R. rewrite nW_app, lead_K, WO_R by auto. lia. Qed.

  (* where the actions are *)
  Lemma in_P k c j a : c < n -> In a (segm (P k c) j) -> KL <= j /\ In a (segm (W k c ++ out k c) (j - KL)).
  Proof.
    intros Hc I. unfold P in I. apply in_segm_app in I. rewrite lead_K in I by auto. destruct I as [I|I]; auto.
    rewrite segm_none in I; [destruct I|]. intros. apply lead_acts.
  Qed.
  Lemma in_WO k c j a : c < n -> In a (segm (W k c ++ out k c) j) -> In a (segm (W k c) j) \/ (j = RW /\ In a (segm (out k c) 0)).
  Proof.
    intros Hc I. apply in_segm_app in I. rewrite W_R in I by auto. destruct I as [I|(L & I)]; auto.
    right. destruct (Nat.eq_dec j RW) as [->|Ne]; [now rewrite Nat.sub_diag in I|].
    rewrite segm_beyond in I; [destruct I|]. rewrite out_K. lia.
  Qed.

  Lemma knows_P k d v c m : d < n -> knows (W k) d v c m -> knows (P k) d (KL + v) c (KL + m).
  Proof.
    intros Hd K. unfold P. apply (knows_r n KL lead (WO k)); auto.
    - intros; now apply lead_K.
    - intros; now apply WO_ok.
    - now apply knows_l.
  Qed.

  (* the cells of an action *)
  Lemma act_cells k c k1 d s : c < n -> In (MAct k1 d s) (W k c ++ out k c) ->
    (inbank k d \/ (exists i, (0 <= i < z)%Z /\ d = recv_cell n z k c i)) /\ (forall a, s = Shm a -> inbank k a).
  Proof.
    intros Hc I. apply in_app_or in I. destruct I as [I|I].
    - destruct (W_cells k c k1 d s Hc I). auto.
    - apply in_out in I. destruct I as (_ & _ & i & Hi & -> & ->). split; [right; eauto|].
      intros a E. injection E as <-. unfold inbank. eauto.
  Qed.
  Lemma inbank_not_recv k k' c y : ~ inbank k (recv_cell n z k' c y).
  Proof. intros (l & a & E). symmetry in E. revert E. apply shm_not_recv. apply bank_2. Qed.

  (* two actions of different cores that meet do so in the shared segment *)
  Lemma meet k1 d1 s1 k2 d2 s2 i j c d : c < n -> d < n -> c <> d ->
    In (MAct k1 d1 s1) (W i c ++ out i c) -> In (MAct k2 d2 s2) (W j d ++ out j d) -> clash k1 d1 s1 k2 d2 s2 ->
    (exists a, inbank i a /\ inbank j a) /\ ~ (In (MAct k1 d1 s1) (out i c) /\ In (MAct k2 d2 s2) (out j d)).
  Proof.
    intros Hc Hd Ne I1 I2 C.
    pose proof (act_cells i c k1 d1 s1 Hc I1) as (D1 & S1). pose proof (act_cells j d k2 d2 s2 Hd I2) as (D2 & S2).
    split.
    - destruct C as [<-|[E|E]].
      + destruct D1 as [D1|(y & Hy & E)].
        * exists d1. split; auto. destruct D2 as [D2|(y & _ & ->)]; auto. destruct (inbank_not_recv _ _ _ _ D1).
        * destruct D2 as [D2|(y' & Hy' & E')]; [subst; destruct (inbank_not_recv _ _ _ _ D2)|].
          rewrite E in E'. apply recv_cell_inj in E'; auto. tauto.
      + specialize (S2 _ E). exists d1. split; auto. destruct D1 as [D1|(y & _ & ->)]; auto. destruct (inbank_not_recv _ _ _ _ S2).
      + specialize (S1 _ E). exists d2. split; auto. destruct D2 as [D2|(y & _ & ->)]; auto. destruct (inbank_not_recv _ _ _ _ S1).
    - intros (O1 & O2). apply in_out in O1, O2.
      destruct O1 as (_ & _ & y1 & H1 & -> & ->), O2 as (_ & _ & y2 & H2 & -> & ->).
      destruct C as [E|[E|E]].
      + apply recv_cell_inj in E; auto. tauto.
      + injection E as E. revert E. apply shm_not_recv, bank_2.
      + injection E as E. revert E. apply shm_not_recv, bank_2.
  Qed.

  Lemma in_segm0 k c k1 d s : In (k1, d, s) (segm (out k c) 0) -> In (MAct k1 d s) (out k c).
  Proof. apply in_segm_micro. Qed.

  Lemma P_race k : race_free n (P k).
  Proof.
    assert (G : forall c d j k1 d1 s1 k2 d2 s2, c < n -> d < n -> c <> d ->
      In (k1, d1, s1) (segm (W k c) j) -> In (k2, d2, s2) (segm (out k d) 0) -> clash k1 d1 s1 k2 d2 s2 ->
      knows (W k) d RW c j).
    { intros c d j k1 d1 s1 k2 d2 s2 Hc Hd Ne I1 I2 C.
      apply in_segm0, in_out in I2. destruct I2 as (Gd & _ & y & Hy & -> & ->).
      destruct (W_cells k c k1 d1 s1 Hc (in_segm_micro _ _ _ _ _ I1)) as (D1 & S1).
      destruct C as [->|[E| ->]].
      - destruct (inbank_not_recv _ _ _ _ D1).
      - injection E as E. subst d1. eapply W_out; eauto.
      - destruct (inbank_not_recv _ _ _ _ (S1 _ eq_refl)). }
    intros c d j j' k1 d1 s1 k2 d2 s2 Hc Hd Ne I1 I2 C.
    apply in_P in I1; auto. apply in_P in I2; auto. destruct I1 as (L1 & I1), I2 as (L2 & I2).
    assert (A1 := in_segm_micro _ _ _ _ _ I1). assert (A2 := in_segm_micro _ _ _ _ _ I2).
    destruct (meet k1 d1 s1 k2 d2 s2 k k c d Hc Hd Ne A1 A2 C) as (_ & NO).
    apply in_WO in I1; auto. apply in_WO in I2; auto.
    assert (T : (knows (W k) d (j' - KL) c (j - KL) \/ knows (W k) c (j - KL) d (j' - KL)) -> 
                knows (P k) d j' c j \/ knows (P k) c j d j').
    { intros [K|K]; [left|right]; apply knows_P in K; auto;
        replace (KL + (j - KL)) with j in K by lia; now replace (KL + (j' - KL)) with j' in K by lia. }
    destruct I1 as [I1|(E1 & I1)], I2 as [I2|(E2 & I2)].
    - apply T. eapply W_race; eauto.
    - apply T. left. rewrite E2. eapply G; eauto.
    - apply T. right. rewrite E1. eapply (G d c); eauto. unfold clash in *. intuition.
    - destruct NO. split; eapply in_segm0; eauto.
  Qed.

  Lemma lead_knows k d c : first = true -> c < n -> d < n -> c <> d -> knows (P k) d KL c 0.
  Proof.
    intros F Hc Hd Ne. unfold P, KL. apply knows_l.
    apply knows_ext with (A := full_bar n); [intros x; unfold lead; now rewrite F|].
    rewrite F. now apply full_bar_knows.
  Qed.

  Lemma P_full k c d : c < n -> d < n -> c <> d -> knows (P k) d R c 0.
  Proof.
    intros Hc Hd Ne. destruct W_sep as [F|(_ & Q)].
    - eapply k_mono; [now apply lead_knows|unfold R; lia].
    - eapply k_down; [apply knows_P; auto|lia].
  Qed.

  Lemma P_cross i j c d u v k1 d1 s1 k2 d2 s2 : i < j -> c < n -> d < n -> c <> d ->
    In (k1, d1, s1) (segm (P i c) u) -> In (k2, d2, s2) (segm (P j d) v) -> clash k1 d1 s1 k2 d2 s2 ->
    knows (P j) d v c 0 \/ i + 2 <= j.
  Proof.
    intros L Hc Hd Ne I1 I2 C. apply in_P in I1; auto. apply in_P in I2; auto.
    destruct I1 as (L1 & I1), I2 as (L2 & I2). destruct W_sep as [F|(Al & _)].
    - left. eapply k_mono; [now apply lead_knows|auto].
    - right. destruct (Nat.eq_dec j (S i)) as [->|]; [exfalso|lia].
      destruct (meet k1 d1 s1 k2 d2 s2 i (S i) c d Hc Hd Ne (in_segm_micro _ _ _ _ _ I1) (in_segm_micro _ _ _ _ _ I2) C) as ((x & X1 & X2) & _).
      destruct X1 as (l1 & a1 & ->), X2 as (l2 & a2 & E). apply shm_cell_inj in E; try apply bank_2.
      destruct E as (E & _). rewrite Al in E. now apply bank_next in E.
  Qed.

  Hypothesis R_small : (Z.of_nat (2 * R + 1) < 2 ^ 31)%Z.
  Context {V : Type} (op : V -> V -> V) (send : nat -> Z -> V).

  Lemma P_lock k m y : lock n (P k) R op send m y =
    phases op send (fun c => segm (out k c) 0) (seq 0 n) (lock n (W k) RW op send m) y.
  Proof.
    pose proof (race_calm n _ (P_race k)) as C. unfold P, R in *.
    rewrite (lock_app n op send lead (WO k) KL RW m (fun c Hc => lead_K c Hc) C y).
    assert (C2 : calm n (WO k)).
    { intros c d j k1 d1 s1 k2 d2 s2 Hc Hd Ne I1 I2. apply (C c d (KL + j) k1 d1 s1 k2 d2 s2); auto;
        apply in_segm_app; right; rewrite lead_K by auto; replace (KL + j - KL) with j by lia; split; auto; lia. }
    replace (lock n (WO k) RW op send) with (lock n (WO k) (RW + 0) op send) by (now rewrite Nat.add_0_r).
    rewrite (lock_app n op send (W k) (out k) RW 0 _ (fun c Hc => W_R k c Hc) C2 y).
    unfold lock at 1. simpl. unfold phase.
    apply (phases_eqm op send). apply lock_eqm.
    intros x. apply lock_other. intros c k1 s Hc. apply lead_acts.
  Qed.

  Lemma segm_acts (f : nat -> act) l : segm (map (fun i => MAct (fst (fst (f i))) (snd (fst (f i))) (snd (f i))) l) 0 = map f l.
  Proof. induction l as [|i l IH]; simpl; auto. rewrite IH. now destruct (f i) as [[? ?] ?]. Qed.

  Lemma out_value k m c y : c < n -> get c = true -> (0 <= y < z)%Z ->
    phases op send (fun c => segm (out k c) 0) (seq 0 n) m (recv_cell n z k c y) = m (shm_cell (bank alt k) line (y + off)).
  Proof.
    intros Hc G Hy. rewrite (phases_own n op send _ m c); auto.
    - unfold out. rewrite G. set (f := fun i => (Copy, recv_cell n z k c (Z.of_nat i), Shm (shm_cell (bank alt k) line (Z.of_nat i + off)))).
      change (map _ (seq 0 (Z.to_nat z))) with (map (fun i => MAct (fst (fst (f i))) (snd (fst (f i))) (snd (f i))) (seq 0 (Z.to_nat z))).
      rewrite segm_acts.
      replace (Z.to_nat z) with (Z.to_nat y + S (Z.to_nat (z - y - 1))) by lia.
      rewrite seq_app. simpl (seq (0 + _) _). rewrite map_app. cbn [map]. unfold f at 2. rewrite Z2Nat.id by lia.
      rewrite seg_one; [reflexivity| |].
      + intros a I. apply in_app_or in I.
        assert (X : forall i, In i (seq 0 (Z.to_nat y)) \/ In i (seq (S (Z.to_nat y)) (Z.to_nat (z - y - 1))) ->
                    adst (f i) <> recv_cell n z k c y).
        { intros i Ii. rewrite !in_seq in Ii. unfold f. simpl. intros E. apply recv_cell_inj in E; auto; lia. }
        destruct I as [I|I]; apply in_map_iff in I; destruct I as (i & <- & I); apply X; auto.
      + intros b a E I. apply in_map_iff in I. destruct I as (i & <- & I). unfold f. simpl. injection E as <-.
        intros E. symmetry in E. revert E. apply shm_not_recv, bank_2.
    - intros d [[k1 d1] s1] [[k2 d2] s2] Hd Ne I1 I2 C. simpl in C. apply in_segm0 in I1, I2.
      destruct (meet k1 d1 s1 k2 d2 s2 k k c d) as (_ & NO); auto; apply in_or_app; auto.
    - intros d [[k1 d1] s1] Hd Ne I E. simpl in E. subst d1. apply in_segm0, in_out in I.
      destruct I as (_ & _ & i & Hi & E & _). apply recv_cell_inj in E; auto. destruct E as (_ & E & _). congruence.
  Qed.

  Context (c0 : nat -> Z) (m0 : Z -> V) (times : nat).
  Notation brun t c := (turns alt (fun k => P k c) t).
  Notation start_ := (bstart (fun c => brun times c) c0 m0).

  Lemma recv_writers k c y d j k1 s1 : c < n -> (0 <= y < z)%Z -> d < n -> In (MAct k1 (recv_cell n z k c y) s1) (P j d) ->
    d = c /\ j = k /\ get d = true.
  Proof.
    intros Hc Hy Hd I. unfold P in I. apply in_app_or in I. destruct I as [I|I]; [destruct (lead_acts _ _ _ _ I)|].
    apply in_app_or in I. destruct I as [I|I].
    - destruct (W_cells j d _ _ _ Hd I) as (X & _). destruct (inbank_not_recv _ _ _ _ X).
    - apply in_out in I. destruct I as (G & _ & i & Hi & E & _). apply recv_cell_inj in E; auto. destruct E as (-> & -> & _). auto.
  Qed.

  (* what is in the receive buffer after an execution *)
  Theorem local_value s c k y : breach op send n start_ s -> c < n -> k < times ->
    returned (fun t => brun t c) times s c k -> get c = true -> (0 <= y < z)%Z ->
    bmem s (recv_cell n z k c y) =
    lock n (W k) RW op send (lock n (series P k) (k * R) op send m0) (shm_cell (bank alt k) line (y + off)).
  Proof.
    intros Rs Hc Hk Rt G Hy.
    rewrite (rounds_value n R P P_ok P_R P_race P_full P_cross R_small op send alt c0 m0 times s c k); auto.
    - rewrite P_lock. now apply out_value.
    - intros d j k1 s1 Hd I. destruct (recv_writers k c y d j k1 s1) as (-> & -> & _); auto.
  Qed.

  Theorem local_kept s c k y : breach op send n start_ s -> c < n -> get c = false -> (0 <= y < z)%Z ->
    bmem s (recv_cell n z k c y) = m0 (recv_cell n z k c y).
  Proof.
    intros Rs Hc G Hy.
    apply (rounds_kept n R P P_ok P_R P_race P_full P_cross R_small op send alt c0 m0 times s); auto.
    intros d j k1 s1 Hd I. destruct (recv_writers k c y d j k1 s1) as (-> & _ & G'); auto. congruence.
  Qed.

  Theorem local_progress s : breach op send n start_ s ->
    bfinished n s \/ exists c s', c < n /\ bstep op send s c = Some s'.
  Proof. exact (rounds_progress n R P P_ok P_R P_race P_full P_cross R_small op send alt c0 m0 times s). Qed.

  (* a cell that the work does not write keeps its value *)
  Lemma series_kept k l a b m : (forall j c k1 s, c < n -> ~ In (MAct k1 (shm_cell b l a) s) (W j c)) -> b < 2 ->
    lock n (series P k) (k * R) op send m (shm_cell b l a) = m (shm_cell b l a).
  Proof.
    intros H Hb. apply (lock_keep n R P P_ok P_R P_race P_full P_cross R_small). intros j c k1 s _ Hc I. unfold P in I.
    apply in_app_or in I. destruct I as [I|I]; [destruct (lead_acts _ _ _ _ I)|].
    apply in_app_or in I. destruct I as [I|I]; [destruct (H _ _ _ _ Hc I)|].
    apply in_out in I. destruct I as (_ & _ & i & _ & E & _). revert E. apply shm_not_recv; auto.
  Qed.
End Local.
