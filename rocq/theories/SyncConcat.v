(* Programs one after the other. *)
From Verif Require Import Base BarrierModel NodeModel SyncProofs SyncItems.
Local Ltac Zify.zify_post_hook ::= idtac.
Local Open Scope nat_scope.

Lemma in_segm_app p q j a : In a (segm (p ++ q) j) <->
  In a (segm p j) \/ (nW p <= j /\ In a (segm q (j - nW p))).
Proof.
  destruct (lt_eq_lt_dec j (nW p)) as [[L|L]|L].
  - rewrite segm_app_lt by auto. intuition lia.
  - subst j. rewrite segm_app_eq, in_app_iff, Nat.sub_diag. intuition.
  - rewrite segm_app_gt by auto. rewrite (segm_beyond p) by auto. simpl. intuition.
Qed.

Lemma in_segm_micro l : forall k d s j, In (k, d, s) (segm l j) -> In (MAct k d s) l.
Proof.
  induction l as [|[e|e|k' d' s'] l IH]; simpl; intros k d s j I; [destruct I| | |].
  - right. eauto.
  - destruct j; [destruct I|]. right. eauto.
  - destruct j; [|right; eauto]. destruct I as [I|I]; [left; congruence|right; eauto].
Qed.

(* actions of different cores in the same segment do not touch the same cell *)
Definition calm (n : nat) (prog : nat -> list micro) : Prop := forall c d j k1 d1 s1 k2 d2 s2,
  c < n -> d < n -> c <> d ->
  In (k1, d1, s1) (segm (prog c) j) -> In (k2, d2, s2) (segm (prog d) j) -> ~ clash k1 d1 s1 k2 d2 s2.

Lemma race_calm n prog : race_free n prog -> calm n prog.
Proof.
  intros R c d j k1 d1 s1 k2 d2 s2 Hc Hd Ne I1 I2 C.
  destruct (R c d j j _ _ _ _ _ _ Hc Hd Ne I1 I2 C) as [H|H]; apply knows_lt in H; lia.
Qed.

Lemma calm_prefix n A B : calm n (fun c => A c ++ B c) -> calm n A.
Proof.
  intros C c d j k1 d1 s1 k2 d2 s2 Hc Hd Ne I1 I2.
  apply (C c d j k1 d1 s1 k2 d2 s2 Hc Hd Ne); apply in_segm_app; auto.
Qed.

Section Lock.
  Context (n : nat) {V : Type} (op : V -> V -> V) (send : nat -> Z -> V).
  Notation seg_ := (segment op send).

  Lemma segment_app c a b m : seg_ c (a ++ b) m = seg_ c b (seg_ c a m).
  Proof. apply fold_left_app. Qed.

  Lemma segment_eqm c l : forall m m', eqm m m' -> eqm (seg_ c l m) (seg_ c l m').
  Proof.
    unfold segment. induction l as [|[[k d] s] l IH]; simpl; intros m m' E; auto.
    apply IH. now apply effect_eqm.
  Qed.

  Definition phases (X : nat -> list act) (l : list nat) (m : Z -> V) : Z -> V :=
    fold_left (fun m c => seg_ c (X c) m) l m.

  Lemma phases_eqm X l : forall m m', eqm m m' -> eqm (phases X l m) (phases X l m').
  Proof. unfold phases. induction l as [|c l IH]; simpl; intros m m' E; auto. apply IH. now apply segment_eqm. Qed.

  Lemma phases_S X k m : phases X (seq 0 (S k)) m = seg_ k (X k) (phases X (seq 0 k) m).
  Proof. unfold phases. rewrite seq_S, fold_left_app. reflexivity. Qed.

  Definition quiet (a b : act) : Prop :=
    ~ clash (fst (fst a)) (snd (fst a)) (snd a) (fst (fst b)) (snd (fst b)) (snd b).

  Lemma commute_one c d b l : (forall a, In a l -> quiet a b) -> forall m,
    eqm (effect op send d (fst (fst b)) (snd (fst b)) (snd b) (seg_ c l m))
        (seg_ c l (effect op send d (fst (fst b)) (snd (fst b)) (snd b) m)).
  Proof.
    induction l as [|a l IH]; intros H m x; [reflexivity|].
    change (seg_ c (a :: l) m) with (seg_ c l (effect op send c (fst (fst a)) (snd (fst a)) (snd a) m)).
    rewrite IH by (intros; apply H; simpl; auto).
    match goal with |- _ = seg_ c (a :: l) ?m' x =>
      change (seg_ c (a :: l) m') with (seg_ c l (effect op send c (fst (fst a)) (snd (fst a)) (snd a) m')) end.
    apply segment_eqm. intros y. symmetry. revert y. apply (effect_commute 0 op send 0%Z). apply (H a). simpl. auto.
  Qed.

  Lemma commute_seg c d X Y : (forall a b, In a X -> In b Y -> quiet a b) -> forall m,
    eqm (seg_ d Y (seg_ c X m)) (seg_ c X (seg_ d Y m)).
  Proof.
    induction Y as [|b Y IH]; intros H m x; [reflexivity|].
    change (seg_ d (b :: Y) (seg_ c X m)) with (seg_ d Y (effect op send d (fst (fst b)) (snd (fst b)) (snd b) (seg_ c X m))).
    change (seg_ d (b :: Y) m) with (seg_ d Y (effect op send d (fst (fst b)) (snd (fst b)) (snd b) m)).
    rewrite (segment_eqm d Y _ _ (commute_one c d b X ltac:(intros; apply H; simpl; auto) m)).
    apply IH. intros; apply H; simpl; auto.
  Qed.

  Lemma commute_phases X Y k : (forall c a b, c < k -> In a X -> In b (Y c) -> quiet a b) -> forall m,
    eqm (seg_ k X (phases Y (seq 0 k) m)) (phases Y (seq 0 k) (seg_ k X m)).
  Proof.
    intros H. assert (G : forall j, j <= k -> forall m, eqm (seg_ k X (phases Y (seq 0 j) m)) (phases Y (seq 0 j) (seg_ k X m))).
    { induction j as [|j IH]; intros Hj m x; [reflexivity|].
      rewrite !phases_S. rewrite <- (commute_seg k j X (Y j)) by (intros a b Ia Ib; apply (H j); auto; lia).
      apply segment_eqm. apply IH. lia. }
    apply G. auto.
  Qed.

  Lemma merge_phases X Y k : (forall c d a b, c < k -> d < k -> c <> d -> In a (X c) -> In b (Y d) -> quiet a b) -> forall m,
    eqm (phases (fun c => X c ++ Y c) (seq 0 k) m) (phases Y (seq 0 k) (phases X (seq 0 k) m)).
  Proof.
    induction k as [|k IH]; intros H m x; [reflexivity|].
    rewrite !phases_S, segment_app.
    apply segment_eqm. intros y.
    rewrite (segment_eqm k (X k) _ _ (IH ltac:(intros c d a b Hc Hd; apply H; lia) m)).
    apply commute_phases. intros c a b Hc. apply H; lia.
  Qed.

  Lemma lock_eqm prog K m m' : eqm m m' -> eqm (lock n prog K op send m) (lock n prog K op send m').
  Proof.
    unfold lock. generalize (seq 0 (S K)). intros l. revert m m'.
    induction l as [|j l IH]; simpl; intros m m' E; auto.
    apply IH. apply (phases_eqm (fun c => segm (prog c) j)). exact E.
  Qed.

  Lemma lock_app A B KA KB m : (forall c, c < n -> nW (A c) = KA) -> calm n (fun c => A c ++ B c) ->
    eqm (lock n (fun c => A c ++ B c) (KA + KB) op send m) (lock n B KB op send (lock n A KA op send m)).
  Proof.
    intros HA C. unfold lock.
    replace (S (KA + KB)) with (KA + S KB) by lia. rewrite seq_app, fold_left_app. simpl (0 + KA).
    rewrite (seq_S KA 0), fold_left_app. cbn [seq fold_left]. simpl (0 + KA).
    assert (E1 : fold_left (fun m j => phase n (fun c => A c ++ B c) op send j m) (seq 0 KA) m =
                 fold_left (fun m j => phase n A op send j m) (seq 0 KA) m).
    { apply fold_left_eq. intros a j I. apply in_seq in I. unfold phase. apply fold_left_eq.
      intros a' c Ic. apply in_seq in Ic. rewrite segm_app_lt; auto. rewrite HA; lia. }
    rewrite E1. generalize (fold_left (fun m j => phase n A op send j m) (seq 0 KA) m). clear E1 m. intros m.
    assert (E2 : eqm (phase n (fun c => A c ++ B c) op send KA m) (phase n B op send 0 (phase n A op send KA m))).
    { intros x. transitivity (phases (fun c => segm (A c) KA ++ segm (B c) 0) (seq 0 n) m x).
      - unfold phase, phases. apply (f_equal (fun f : Z -> V => f x)). apply fold_left_eq. intros a c Ic. apply in_seq in Ic.
        rewrite <- (HA c) at 1 by lia. rewrite segm_app_eq, (HA c) by lia. reflexivity.
      - apply merge_phases. intros c d [[k1 d1] s1] [[k2 d2] s2] Hc Hd Ne I1 I2.
        apply (C c d KA k1 d1 s1 k2 d2 s2 Hc Hd Ne); apply in_segm_app; auto.
        right. rewrite HA by auto. rewrite Nat.sub_diag. auto. }
    assert (E3 : forall j m, 0 < j -> phase n (fun c => A c ++ B c) op send (KA + j) m = phase n B op send j m).
    { intros j m' Hj. unfold phase. apply fold_left_eq. intros a c Ic. apply in_seq in Ic.
      rewrite segm_app_gt; rewrite HA; try lia. replace (KA + j - KA) with j by lia. reflexivity. }
    assert (E4 : forall l m m', eqm m m' -> (forall j, In j l -> 0 < j) ->
      eqm (fold_left (fun m j => phase n (fun c => A c ++ B c) op send j m) (map (Nat.add KA) l) m)
          (fold_left (fun m j => phase n B op send j m) l m')).
    { induction l as [|j l IH]; intros m1 m2 E P; simpl; auto. apply IH; [|intros; apply P; simpl; auto].
      rewrite E3 by (apply P; simpl; auto).
      apply (phases_eqm (fun c => segm (B c) j)). exact E. }
    assert (E5 : seq (S KA) KB = map (Nat.add KA) (seq 1 KB)).
    { clear. assert (G : forall k s, seq (KA + s) k = map (Nat.add KA) (seq s k)).
      { induction k as [|k IH]; intros s; simpl; auto. f_equal. rewrite <- IH. f_equal. lia. }
      replace (S KA) with (KA + 1) by lia. apply G. }
    cbn [seq fold_left]. rewrite E5. apply E4; auto. intros j I. apply in_seq in I. lia.
  Qed.

  (* items *)
  Section Items.
    Context (len : nat -> nat) (ws : nat -> nat -> list nat) (acts : nat -> nat -> list act).
    Hypothesis ws_len : forall c i, c < n -> length (ws c i) = len i.
    Hypothesis ws_n : forall c i x, c < n -> In x (ws c i) -> x < n.

    Lemma lock_item i m : lock n (fun c => item ws acts c i) (len i) op send m = phases (fun c => acts c i) (seq 0 n) m.
    Proof.
      unfold lock. rewrite seq_S, fold_left_app. cbn [fold_left]. simpl (0 + len i).
      rewrite fold_left_id.
      - unfold phase, phases. apply fold_left_eq. intros a c Ic. apply in_seq in Ic.
        rewrite (segm_item n len ws acts ws_len ws_n) by lia. now rewrite Nat.eqb_refl.
      - intros a j Ij. apply in_seq in Ij. unfold phase. apply fold_left_id. intros a' c Ic. apply in_seq in Ic.
        rewrite (segm_item n len ws acts ws_len ws_n) by lia. rewrite (proj2 (Nat.eqb_neq _ _)) by lia. reflexivity.
    Qed.

    Lemma calm_items M : calm n (iprog ws acts (S M)) -> calm n (iprog ws acts M).
    Proof.
      intros C. apply (calm_prefix n _ (fun c => item ws acts c M)).
      intros c d j. rewrite <- !iprog_S. apply C.
    Qed.

    Lemma lock_items_calm M m : calm n (iprog ws acts M) ->
      eqm (lock n (iprog ws acts M) (cum len M) op send m)
          (fold_left (fun m i => phases (fun c => acts c i) (seq 0 n) m) (seq 0 M) m).
    Proof.
      induction M as [|M IH]; intros C.
      - unfold lock. simpl. unfold phase. intros x. apply (f_equal (fun f : Z -> V => f x)). apply fold_left_id. reflexivity.
      - intros x. rewrite seq_S, fold_left_app. cbn [fold_left]. simpl (0 + M).
        rewrite (cum_S len ws acts).
        transitivity (lock n (fun c => iprog ws acts M c ++ item ws acts c M) (cum len M + len M) op send m x).
        { unfold lock. apply (f_equal (fun f : Z -> V => f x)). apply fold_left_eq. intros a j _. unfold phase. apply fold_left_eq. intros a' c _.
          now rewrite iprog_S. }
        rewrite lock_app.
        + rewrite lock_item. apply phases_eqm. apply IH. exact (calm_items M C).
        + intros c Hc. now apply (nW_iprog n len ws acts ws_len ws_n).
        + intros c d j. rewrite <- !iprog_S. apply C.
    Qed.
  End Items.
End Lock.
