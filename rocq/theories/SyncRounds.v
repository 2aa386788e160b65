(* Rounds one after the other: a program that is free of races and after which every
   core has heard of every other one can be repeated. *)
From Verif Require Import Base BarrierModel NodeModel SyncProofs SyncItems SyncConcat SingleModel SyncBank SingleSpec SingleProofs LocalModel.
Local Ltac Zify.zify_post_hook ::= idtac.
Local Open Scope nat_scope.

Lemma okb_waits n own l : forall b j e, okb n own b l -> nth_error (waits l) j = Some e -> exists x, x < n /\ e = Z.of_nat x.
Proof.
  induction l as [|[e'|e'|k d s] l IH]; simpl; intros b j e O E.
  - destruct j; discriminate.
  - apply (IH _ j e (proj2 (proj2 O)) E).
  - destruct O as (_ & X & O). destruct j as [|j]; simpl in E; [injection E as <-; exact X|apply (IH _ j e O E)].
  - apply (IH _ j e (proj2 O) E).
Qed.

(* ---- knowledge in a sequence of two programs ---- *)
Section Two.
  Context (n KA : nat) (A B : nat -> list micro).
  Notation AB := (fun c => A c ++ B c).

  Lemma knows_l d j c m : knows A d j c m -> knows AB d j c m.
  Proof.
    induction 1.
    - now constructor.
    - apply k_wait. rewrite waits_app, nth_error_app1; auto. apply nth_error_Some. congruence.
    - eapply k_trans; eauto. rewrite waits_app, nth_error_app1; auto. apply nth_error_Some. congruence.
    - eapply k_mono; eauto.
    - eapply k_down; eauto.
  Qed.

  Hypothesis A_K : forall c, c < n -> nW (A c) = KA.
  Hypothesis B_ok : forall c, c < n -> okb n c false (B c).

  Lemma knows_r d j c m : knows B d j c m -> d < n -> knows AB d (KA + j) c (KA + m).
  Proof using A_K B_ok.
    induction 1 as [c j m L|c j x E|c j x d m E K IH|c j j' d m K IH L|c j d m m' K IH L]; intros Hc.
    - constructor. lia.
    - replace (KA + S j) with (S (KA + j)) by lia. apply k_wait.
      rewrite waits_app, nth_error_app2; rewrite waits_length, A_K by auto; [|lia].
      replace (KA + j - KA) with j by lia. auto.
    - replace (KA + S j) with (S (KA + j)) by lia. apply k_trans with (x := x).
      + rewrite waits_app, nth_error_app2; rewrite waits_length, A_K by auto; [|lia].
        replace (KA + j - KA) with j by lia. auto.
      + apply IH. destruct (okb_waits n c (B c) false j _ (B_ok c Hc) E) as (y & Hy & Ey).
        apply Nat2Z.inj in Ey. now subst.
    - eapply k_mono; [apply IH; auto|lia].
    - eapply k_down; [apply IH; auto|lia].
  Qed.

  Hypothesis AB_ok : forall c, c < n -> okb n c false (A c ++ B c).

  Lemma knows_rest d j c m : knows AB d j c m -> d < n -> KA <= m -> knows B d (j - KA) c (m - KA).
  Proof using A_K B_ok AB_ok.
    induction 1 as [c j m L|c j x E|c j x d m E K IH|c j j' d m K IH L|c j d m m' K IH L]; intros Hc Hm.
    - constructor. lia.
    - rewrite waits_app, nth_error_app2 in E; rewrite waits_length, A_K in * by auto; [|lia].
      replace (S j - KA) with (S (j - KA)) by lia. apply k_wait; auto.
    - pose proof (knows_lt _ _ _ _ _ K) as L.
      assert (Hx : x < n).
      { destruct (okb_waits n c _ false j _ (AB_ok c Hc) E) as (y & Hy & Ey). apply Nat2Z.inj in Ey. now subst. }
      rewrite waits_app, nth_error_app2 in E; rewrite waits_length, A_K in * by auto; [|lia].
      replace (S j - KA) with (S (j - KA)) by lia. apply k_trans with (x := x); auto.
    - eapply k_mono; [apply IH; auto|lia].
    - eapply k_down; [apply IH; auto; lia|lia].
  Qed.

  Lemma race_rest : race_free n AB -> race_free n B.
  Proof using A_K B_ok AB_ok.
    intros RF c d j k k1 d1 s1 k2 d2 s2 Hc Hd Ne I1 I2 C.
    destruct (RF c d (KA + j) (KA + k) k1 d1 s1 k2 d2 s2 Hc Hd Ne) as [Q|Q]; auto.
    - apply in_segm_app. right. rewrite A_K by auto. replace (KA + j - KA) with j by lia. split; [lia|auto].
    - apply in_segm_app. right. rewrite A_K by auto. replace (KA + k - KA) with k by lia. split; [lia|auto].
    - left. apply knows_rest in Q; auto; [|lia]. replace (KA + k - KA) with k in Q by lia.
      now replace (KA + j - KA) with j in Q by lia.
    - right. apply knows_rest in Q; auto; [|lia]. replace (KA + k - KA) with k in Q by lia.
      now replace (KA + j - KA) with j in Q by lia.
  Qed.
End Two.

Lemma knows_ext A B d j c m : (forall x, waits (A x) = waits (B x)) -> knows A d j c m -> knows B d j c m.
Proof.
  intros E. induction 1.
  - now constructor.
  - apply k_wait. now rewrite <- E.
  - eapply k_trans; eauto. now rewrite <- E.
  - eapply k_mono; eauto.
  - eapply k_down; eauto.
Qed.

(* ---- a program without actions on a cell ---- *)
Lemma lock_other n {V} (op : V -> V -> V) send prog K m y :
  (forall c k s, c < n -> ~ In (MAct k y s) (prog c)) -> lock n prog K op send m y = m y.
Proof.
  intros H. unfold lock. generalize (seq 0 (S K)). intros l. revert m.
  induction l as [|j l IH]; intros m; [reflexivity|]. cbn [fold_left]. rewrite IH.
  apply (phases_other op send (fun c => segm (prog c) j)). intros c [[k d] s] I Ia E. apply in_seq in I.
  simpl in E. subst d. apply (H c k s); [lia|]. eapply in_segm_micro; eauto.
Qed.

Section Rounds.
  Context (n R : nat) (P : nat -> nat -> list micro).
  Hypothesis P_ok : forall k c, c < n -> okb n c false (P k c).
  Hypothesis P_R : forall k c, c < n -> nW (P k c) = R.
  Hypothesis P_race : forall k, race_free n (P k).
  Hypothesis P_full : forall k c d, c < n -> d < n -> c <> d -> knows (P k) d R c 0.
  Hypothesis P_cross : forall i j c d u v k1 d1 s1 k2 d2 s2, i < j -> c < n -> d < n -> c <> d ->
    In (k1, d1, s1) (segm (P i c) u) -> In (k2, d2, s2) (segm (P j d) v) -> clash k1 d1 s1 k2 d2 s2 ->
    knows (P j) d v c 0 \/ i + 2 <= j.
  Hypothesis R_small : (Z.of_nat (2 * R + 1) < 2 ^ 31)%Z.

  Definition series (t c : nat) : list micro := flat_map (fun k => P k c) (seq 0 t).

  Lemma series_S t c : series (S t) c = series t c ++ P t c.
  Proof. unfold series. rewrite seq_S, flat_map_app. simpl. now rewrite app_nil_r. Qed.

  Lemma nW_series t c : c < n -> nW (series t c) = t * R.
  Proof. intros Hc. induction t as [|t IH]; [reflexivity|]. rewrite series_S, nW_app, IH, P_R by auto. lia. Qed.

  Lemma ok_series t c : c < n -> okb n c false (series t c).
  Proof. intros Hc. induction t as [|t IH]; [reflexivity|]. rewrite series_S. apply okb_app; auto. Qed.

  Lemma in_series t c j a : c < n -> In a (segm (series t c) j) ->
    exists k u, k < t /\ j = k * R + u /\ u <= R /\ In a (segm (P k c) u).
  Proof.
    intros Hc. revert j. induction t as [|t IH]; intros j I; [destruct I|].
    rewrite series_S in I. apply in_segm_app in I. rewrite nW_series in I by auto. destruct I as [I|(L & I)].
    - destruct (IH j I) as (k & u & Hk & E & Hu & Ia). exists k, u. repeat split; auto.
    - exists t, (j - t * R). repeat split; auto; [lia|].
      apply Nat.nlt_ge. intros Q. rewrite segm_beyond in I; [destruct I|]. now rewrite P_R.
  Qed.

  Lemma knows_series t k d v c m : k < t -> d < n -> knows (P k) d v c m -> knows (series t) d (k * R + v) c (k * R + m).
  Proof.
    intros Hk Hd K. induction t as [|t IH]; [lia|].
    apply knows_ext with (A := fun x => series t x ++ P t x); [intros x; now rewrite series_S|].
    destruct (Nat.eq_dec k t) as [->|Ne].
    - apply (knows_r n (t * R) (series t) (P t)); auto. intros x Hx. now apply nW_series.
    - apply knows_l. apply IH. lia.
  Qed.

  Lemma series_race t : race_free n (series t).
  Proof.
    assert (G : forall c d i j u v k1 d1 s1 k2 d2 s2, i < j -> j < t -> u <= R -> c < n -> d < n -> c <> d ->
      In (k1, d1, s1) (segm (P i c) u) -> In (k2, d2, s2) (segm (P j d) v) -> clash k1 d1 s1 k2 d2 s2 ->
      knows (series t) d (j * R + v) c (i * R + u)).
    { intros c d i j u v k1 d1 s1 k2 d2 s2 L Lt Hu Hc Hd Ne I1 I2 C.
      assert (X : forall q, i < q -> i * R + u <= q * R).
      { intros q Hq. apply Nat.le_trans with (i * R + R); [lia|]. replace (i * R + R) with (S i * R) by lia.
        apply Nat.mul_le_mono_r. lia. }
      destruct (P_cross i j c d u v k1 d1 s1 k2 d2 s2 L Hc Hd Ne I1 I2 C) as [K|K].
      - eapply k_down; [apply (knows_series t j d v c 0); auto|].
        rewrite Nat.add_0_r. auto.
      - eapply k_mono; [eapply k_down; [apply (knows_series t (j - 1) d R c 0); auto; lia|rewrite Nat.add_0_r; apply X; lia]|].
        replace ((j - 1) * R + R) with (S (j - 1) * R) by lia. replace (S (j - 1)) with j by lia. lia. }
    intros c d j k k1 d1 s1 k2 d2 s2 Hc Hd Ne I1 I2 C.
    apply in_series in I1; auto. apply in_series in I2; auto.
    destruct I1 as (r1 & u & H1 & -> & Hu & I1), I2 as (r2 & v & H2 & -> & Hv & I2).
    destruct (lt_eq_lt_dec r1 r2) as [[L|L]|L].
    - left. eapply G; eauto.
    - subst r2. destruct (P_race r1 c d u v k1 d1 s1 k2 d2 s2 Hc Hd Ne I1 I2 C) as [K|K];
        [left|right]; apply knows_series; auto.
    - right. eapply (G d c); eauto. unfold clash in *. intuition.
  Qed.

  Lemma series_near t : near n (series t) (t * R).
  Proof.
    intros c x j Hc Hx Hj. exists (2 * R + 1). split; auto.
    destruct (le_lt_dec j (2 * R + 1)) as [L|L]; auto. right.
    destruct (Nat.eq_dec c x) as [->|Ne]; [constructor; lia|].
    assert (Rp : 0 < R) by (destruct R; lia).
    set (k := j / R). assert (K1 : R * k <= j) by (apply Nat.mul_div_le; lia).
    assert (K2 : j < R * S k) by (apply Nat.mul_succ_div_gt; lia).
    assert (Hk : 0 < k) by (destruct k; lia).
    assert (Kt : k <= t).
    { apply Nat.nlt_ge. intros Q. assert (R * S t <= R * k) by (apply Nat.mul_le_mono_l; lia). lia. }
    eapply k_mono; [eapply k_down; [apply (knows_series t (k - 1) c R x 0); auto; lia|]|].
    - rewrite Nat.mul_sub_distr_r. lia.
    - rewrite Nat.mul_sub_distr_r. assert (R <= k * R) by nia. lia.
  Qed.

  (* ---- the values ---- *)
  Context {V : Type} (op : V -> V -> V) (send : nat -> Z -> V).

  Lemma series_lock t m y : lock n (series (S t)) (S t * R) op send m y =
    lock n (P t) R op send (lock n (series t) (t * R) op send m) y.
  Proof.
    replace (S t * R) with (t * R + R) by lia.
    rewrite <- (lock_app n op send (series t) (P t) (t * R) R m).
    - unfold lock. apply (f_equal (fun f : Z -> V => f y)). apply fold_left_eq. intros a j _. unfold phase.
      apply fold_left_eq. intros a' c _. now rewrite series_S.
    - intros c Hc. now apply nW_series.
    - pose proof (race_calm n _ (series_race (S t))) as C. intros c d j. rewrite <- !series_S. apply C.
  Qed.

  Lemma lock_keep t y m : (forall j c k s, j < t -> c < n -> ~ In (MAct k y s) (P j c)) ->
    lock n (series t) (t * R) op send m y = m y.
  Proof.
    intros H. apply lock_other. intros c k s Hc I. unfold series in I. apply in_flat_map in I.
    destruct I as (j & Ij & I). apply in_seq in Ij. apply (H j c k s); auto. lia.
  Qed.

  Lemma lock_round t k y m : k < t -> (forall j c k1 s, j < t -> c < n -> k < j -> ~ In (MAct k1 y s) (P j c)) ->
    lock n (series t) (t * R) op send m y = lock n (P k) R op send (lock n (series k) (k * R) op send m) y.
  Proof.
    intros Hk H. induction t as [|t IH]; [lia|].
    rewrite series_lock. destruct (Nat.eq_dec k t) as [->|Ne]; [reflexivity|].
    rewrite lock_other; [apply IH; [lia|]|].
    - intros j c k1 s Hj. apply H. lia.
    - intros c k1 s Hc. apply H; lia.
  Qed.

  (* ---- executions ---- *)
  Context (alt : bool) (c0 : nat -> Z) (m0 : Z -> V) (times : nat).
  Notation brun t c := (turns alt (fun k => P k c) t).

  Lemma turns_S (code : nat -> list micro) t : turns alt code (S t) = turns alt code t ++ map (pair (bank alt t)) (code t).
  Proof. unfold turns. rewrite seq_S, flat_map_app. simpl. now rewrite app_nil_r. Qed.

  Definition rtags (t : nat) : list nat := flat_map (fun k => repeat (bank alt k) R) (seq 0 t).

  Lemma r_same t c : c < n -> map snd (brun t c) = series t c.
  Proof. intros _. induction t as [|t IH]; [reflexivity|]. now rewrite turns_S, series_S, map_app, IH, snd_pair. Qed.
  Lemma r_ok t c : c < n -> okt n c None (brun t c).
  Proof.
    intros Hc. induction t as [|t IH]; [reflexivity|]. rewrite turns_S. apply okt_app; auto.
    apply (okt_pair n c _ _ false). auto.
  Qed.
  Lemma r_tags t c : c < n -> wtags (brun t c) = rtags t.
  Proof.
    intros Hc. unfold rtags. induction t as [|t IH]; [reflexivity|].
    rewrite turns_S, wtags_app, IH, wtags_pair, seq_S, flat_map_app, P_R by auto. simpl. now rewrite app_nil_r.
  Qed.
  Lemma rtags_length t : length (rtags t) = t * R.
  Proof.
    unfold rtags. induction t as [|t IH]; [reflexivity|]. rewrite seq_S, flat_map_app, app_length, IH.
    simpl. rewrite app_nil_r, repeat_length. lia.
  Qed.
  Lemma r_near : near n (series times) (length (rtags times)).
  Proof. rewrite rtags_length. apply series_near. Qed.

  Notation start_ := (bstart (fun c => brun times c) c0 m0).

  Theorem rounds_progress s : breach op send n start_ s ->
    bfinished n s \/ exists c s', c < n /\ bstep op send s c = Some s'.
  Proof.
    intros Rs. exact (bank_progress n (fun c => brun times c) (series times) (rtags times)
      (r_same times) (r_ok times) (r_tags times) r_near op send c0 m0 s Rs).
  Qed.

  Lemma turns_split (code : nat -> list micro) k r : k <= r -> exists l,
    turns alt code r = turns alt code k ++ l /\
    (forall h x, In (h, x) l -> exists j, k <= j < r /\ In x (code j)).
  Proof.
    intros L. exists (flat_map (fun j => map (pair (bank alt j)) (code j)) (seq k (r - k))). split.
    - unfold turns. rewrite <- flat_map_app. f_equal. rewrite <- seq_app. f_equal. lia.
    - intros h x I. apply in_flat_map in I. destruct I as (j & Ij & I). apply in_seq in Ij.
      apply in_map_iff in I. destruct I as (y & E & I). injection E as <- <-. exists j. split; auto. lia.
  Qed.

  (* A cell that only core c writes, and only in execution k: it has its value when
     core c has returned from that execution. *)
  Theorem rounds_value s c k y : breach op send n start_ s -> c < n -> k < times ->
    returned (fun t => brun t c) times s c k ->
    (forall d j k1 s1, d < n -> In (MAct k1 y s1) (P j d) -> d = c /\ j = k) ->
    bmem s y = lock n (P k) R op send (lock n (series k) (k * R) op send m0) y.
  Proof.
    intros Rs Hc Hk Rt W.
    rewrite (settled n (fun c => brun times c) (series times) (rtags times)
               (r_same times) (r_ok times) (r_tags times) r_near op send c0 m0 s c y); auto.
    - rewrite rtags_length. apply lock_round; auto. intros j d k1 s1 Hj Hd L I.
      destruct (W d j k1 s1 Hd I). lia.
    - apply series_race.
    - intros d k1 s1 Hd I. unfold series in I. apply in_flat_map in I. destruct I as (j & _ & I).
      exact (proj1 (W d j k1 s1 Hd I)).
    - intros h k1 s1 I.
      destruct (bank_run n (fun c => brun times c) (series times) (rtags times)
               (r_same times) (r_ok times) (r_tags times) r_near op send c0 m0 s Rs) as (t' & s' & _ & Si).
      destruct (si_count _ _ _ _ _ Si c Hc) as (bd & E & _).
      destruct (turns_split (fun k => P k c) (S k) times Hk) as (l & El & Hl).
      unfold returned in Rt. rewrite El in E, Rt. rewrite app_length in Rt.
      destruct (Hl h (MAct k1 y s1)) as (j & Hj & Ij); [eapply suffix_in; eauto; lia|].
      destruct (W c j k1 s1 Hc Ij). lia.
  Qed.

  (* A cell that is never written keeps its value. *)
  Theorem rounds_kept s y : breach op send n start_ s -> 
    (forall d j k1 s1, d < n -> ~ In (MAct k1 y s1) (P j d)) -> bmem s y = m0 y.
  Proof.
    intros Rs W. destruct n as [|n'] eqn:En.
    - destruct Rs as [|s1 c s2 _ H]; [reflexivity|lia].
    - rewrite <- En in *. rewrite (settled n (fun c => brun times c) (series times) (rtags times)
               (r_same times) (r_ok times) (r_tags times) r_near op send c0 m0 s 0 y); auto.
      + rewrite rtags_length. apply lock_keep. intros j d k1 s1 _ Hd. apply W; auto.
      + apply series_race.
      + lia.
      + intros d k1 s1 Hd I. unfold series in I. apply in_flat_map in I. destruct I as (j & _ & I). destruct (W d j k1 s1 Hd I).
      + intros h k1 s1 I.
        destruct (bank_run n (fun c => brun times c) (series times) (rtags times)
               (r_same times) (r_ok times) (r_tags times) r_near op send c0 m0 s Rs) as (t' & s' & _ & Si).
        destruct (si_count _ _ _ _ _ Si 0 ltac:(lia)) as (bd & E & _).
        assert (Q : In (h, MAct k1 y s1) (brun times 0)) by (rewrite E; apply in_or_app; auto).
        unfold turns in Q. apply in_flat_map in Q. destruct Q as (j & _ & Q). apply in_map_iff in Q.
        destruct Q as (z & Ez & Q). injection Ez as _ ->. apply (W 0 j k1 s1); auto. lia.
  Qed.
End Rounds.
