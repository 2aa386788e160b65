(* Programs that consist of the same number of items on all cores; an item is a
   number of set / wait pairs, the same on all cores, followed by actions. *)
From Verif Require Import Base BarrierModel NodeModel SyncProofs.
Local Open Scope nat_scope.

Definition act := (kind * Z * operand)%type.
Definition mact (a : act) : micro := MAct (fst (fst a)) (snd (fst a)) (snd a).
Definition pairs (c : nat) (l : list nat) : list micro :=
  flat_map (fun w => [MSet (Z.of_nat c); MWait (Z.of_nat w)]) l.

Lemma nW_pairs c l : nW (pairs c l) = length l.
Proof. induction l as [|w l IH]; simpl; auto. change (S (nW (pairs c l)) = S (length l)). now rewrite IH. Qed.
Lemma nW_mact l : nW (map mact l) = 0.
Proof. induction l as [|w l IH]; simpl; auto. Qed.
Lemma waits_pairs c l : waits (pairs c l) = map Z.of_nat l.
Proof. induction l as [|w l IH]; simpl; auto. now rewrite IH. Qed.
Lemma waits_mact l : waits (map mact l) = [].
Proof. induction l as [|w l IH]; simpl; auto. Qed.
Lemma segm_pairs c l : forall j, segm (pairs c l) j = [].
Proof. induction l as [|w l IH]; simpl; auto. destruct j; auto. Qed.
Lemma segm_mact l : segm (map mact l) 0 = l.
Proof. induction l as [|[[k d] s] l IH]; simpl; auto. now rewrite IH. Qed.
Lemma segm_mact_S l j : segm (map mact l) (S j) = [].
Proof. induction l as [|[[k d] s] l IH]; simpl; auto. Qed.

Lemma fold_left_eq {A B} (f g : A -> B -> A) l : (forall a b, In b l -> f a b = g a b) ->
  forall a, fold_left f l a = fold_left g l a.
Proof.
  induction l as [|b l IH]; simpl; intros H a; auto. rewrite H by auto. apply IH. intros; apply H; auto.
Qed.

Lemma fold_left_id {A B} (f : A -> B -> A) l : (forall a b, In b l -> f a b = a) ->
  forall a, fold_left f l a = a.
Proof. induction l as [|b l IH]; simpl; intros H a; auto. rewrite H by auto. apply IH. intros; apply H; auto. Qed.

Section Items.
  Context (n : nat) (len : nat -> nat).
  Context (ws : nat -> nat -> list nat) (acts : nat -> nat -> list act).

  Definition item (c i : nat) : list micro := pairs c (ws c i) ++ map mact (acts c i).
  Definition iprog (M c : nat) : list micro := flat_map (item c) (seq 0 M).

  (* number of waits before item i *)
  Definition cum (i : nat) : nat := list_sum (map len (seq 0 i)).

  Lemma cum_S i : cum (S i) = cum i + len i.
  Proof. unfold cum. rewrite seq_S, map_app, list_sum_app. simpl. lia. Qed.

  Lemma cum_mono i j : i <= j -> cum i <= cum j.
  Proof. induction 1; auto. rewrite cum_S. lia. Qed.

  Lemma iprog_S M c : iprog (S M) c = iprog M c ++ item c M.
  Proof. unfold iprog. rewrite seq_S, flat_map_app. simpl. now rewrite app_nil_r. Qed.

  Hypothesis ws_len : forall c i, c < n -> length (ws c i) = len i.
  Hypothesis ws_n : forall c i x, c < n -> In x (ws c i) -> x < n.

  Lemma nW_item c i : c < n -> nW (item c i) = len i.
  Proof. intros. unfold item. rewrite nW_app, nW_pairs, nW_mact, ws_len by auto. lia. Qed.

  Lemma nW_iprog M c : c < n -> nW (iprog M c) = cum M.
  Proof.
    intros Hc. induction M as [|M IH]; [reflexivity|]. rewrite iprog_S, nW_app, IH, nW_item, cum_S by auto. lia.
  Qed.

  Lemma ok_iprog M c : c < n -> okb n c false (iprog M c).
  Proof.
    intros Hc. induction M as [|M IH]; [reflexivity|]. rewrite iprog_S. apply okb_app; auto.
    unfold item. apply okb_app.
    - generalize (ws_n c M). induction (ws c M) as [|w l IHl]; simpl; intros H; auto.
      repeat split; auto. exists w. split; auto.
    - clear. induction (acts c M); simpl; auto.
  Qed.

  Lemma waits_iprog M c i e : c < n -> i < M -> e < len i ->
    nth_error (waits (iprog M c)) (cum i + e) = Some (Z.of_nat (nth e (ws c i) 0)).
  Proof.
    intros Hc Hi He. induction M as [|M IH]; [lia|].
    rewrite iprog_S, waits_app.
    destruct (Nat.eq_dec i M) as [->|Ne].
    - rewrite nth_error_app2; rewrite waits_length, nW_iprog by auto; [|lia].
      replace (cum M + e - cum M) with e by lia. unfold item.
      rewrite waits_app, waits_pairs, waits_mact, app_nil_r.
      rewrite nth_error_map. rewrite (nth_error_nth' _ 0) by (rewrite ws_len; auto). reflexivity.
    - rewrite nth_error_app1; [apply IH; lia|].
      rewrite waits_length, nW_iprog by auto.
      assert (cum (S i) <= cum M) by (apply cum_mono; lia). rewrite cum_S in H. lia.
  Qed.

  Lemma segm_item c i j : c < n -> segm (item c i) j = if j =? len i then acts c i else [].
  Proof.
    intros Hc. unfold item. pose proof (nW_pairs c (ws c i)) as E. rewrite ws_len in E by auto.
    destruct (j =? len i) eqn:Q.
    - apply Nat.eqb_eq in Q. subst j. rewrite <- E at 1. rewrite segm_app_eq, segm_pairs, segm_mact. reflexivity.
    - apply Nat.eqb_neq in Q. destruct (le_lt_dec j (len i)) as [L|L].
      + rewrite segm_app_lt by lia. apply segm_pairs.
      + rewrite segm_app_gt by lia. rewrite E. destruct (j - len i) eqn:D; [lia|]. apply segm_mact_S.
  Qed.

  Lemma in_segm_iprog M c j a : c < n -> In a (segm (iprog M c) j) ->
    exists i, i < M /\ In a (acts c i) /\ j = cum (S i).
  Proof.
    intros Hc. revert j. induction M as [|M IH]; intros j I; [destruct I|].
    rewrite iprog_S in I. pose proof (nW_iprog M c Hc) as E.
    assert (X : In a (segm (iprog M c) j) \/ (cum M <= j /\ In a (segm (item c M) (j - cum M)))).
    { destruct (lt_eq_lt_dec j (cum M)) as [[L|L]|L].
      - left. now rewrite segm_app_lt in I by lia.
      - subst j. rewrite <- E in I at 1. rewrite segm_app_eq, E in I. apply in_app_or in I.
        destruct I; auto. right. split; auto. now rewrite Nat.sub_diag.
      - right. rewrite segm_app_gt in I by lia. rewrite E in I. split; auto. lia. }
    destruct X as [X|(L & X)].
    - destruct (IH j X) as (i & Hi & Ha & Ej). exists i. repeat split; auto.
    - rewrite segm_item in X by auto. destruct (j - cum M =? len M) eqn:Q; [|destruct X].
      apply Nat.eqb_eq in Q. exists M. repeat split; auto. rewrite cum_S. lia.
  Qed.

  (* ---- knowledge ---- *)
  Section Know.
    Context (M : nat).
    Notation kn := (knows (iprog M)).

    Definition clg (nb : nat) : nat := Nat.log2_up nb.

    (* dissemination among nb members *)
    Lemma disseminate_upto (mb : nat -> nat) nb i : i < M -> 0 < nb ->
      (forall t, t < nb -> mb t < n) -> clg nb <= len i ->
      (forall t e, t < nb -> e < clg nb -> nth e (ws (mb t) i) 0 = mb ((t + 2 ^ e) mod nb)) ->
      forall e, e <= clg nb -> forall t u, t < nb -> u < 2 ^ e ->
        (forall d m, kn (mb ((t + u) mod nb)) (cum i) d m -> kn (mb t) (cum i + e) d m) /\
        (mb ((t + u) mod nb) <> mb t -> kn (mb t) (cum i + e) (mb ((t + u) mod nb)) (cum i)).
    Proof.
      intros Hi Hnb Hm Hl Hw. induction e as [|e IH]; intros He t u Ht Hu.
      - simpl in Hu. assert (u = 0) by lia. subst u. rewrite Nat.add_0_r, Nat.mod_small by auto.
        rewrite Nat.add_0_r. split; auto. congruence.
      - assert (Pe : 2 ^ S e = 2 ^ e + 2 ^ e) by (simpl; lia).
        destruct (le_lt_dec (2 ^ e) u) as [L|L].
        + (* beyond: via the partner *)
          set (p := (t + 2 ^ e) mod nb).
          assert (Hp : p < nb) by (apply Nat.mod_upper_bound; lia).
          assert (W : nth_error (waits (iprog M (mb t))) (cum i + e) = Some (Z.of_nat (mb p))).
          { rewrite waits_iprog; auto; [|lia]. now rewrite Hw by (auto; lia). }
          destruct (IH ltac:(lia) p (u - 2 ^ e) Hp ltac:(lia)) as (I1 & I2).
          replace ((p + (u - 2 ^ e)) mod nb) with ((t + u) mod nb) in *.
          2:{ unfold p. rewrite Nat.add_mod_idemp_l by lia. f_equal. lia. }
          replace (cum i + S e) with (S (cum i + e)) by lia.
          split.
          * intros d m Kn. eapply k_trans; eauto.
          * intros Ne. destruct (Nat.eq_dec (mb ((t + u) mod nb)) (mb p)) as [E|E].
            -- rewrite E. eapply k_down; [eapply k_wait; eauto|lia].
            -- eapply k_trans; eauto.
        + destruct (IH ltac:(lia) t u Ht L) as (I1 & I2). split.
          * intros d m Kn. eapply k_mono; [eauto|lia].
          * intros Ne. eapply k_mono; [eauto|lia].
    Qed.

    Lemma disseminate (mb : nat -> nat) nb i : i < M -> 0 < nb ->
      (forall t, t < nb -> mb t < n) -> clg nb <= len i ->
      (forall t e, t < nb -> e < clg nb -> nth e (ws (mb t) i) 0 = mb ((t + 2 ^ e) mod nb)) ->
      forall t u, t < nb -> u < nb ->
        (forall d m, kn (mb u) (cum i) d m -> kn (mb t) (cum (S i)) d m) /\
        (mb u <> mb t -> kn (mb t) (cum (S i)) (mb u) (cum i)).
    Proof.
      intros Hi Hnb Hm Hl Hw t u Ht Hu.
      set (v := (u + (nb - t)) mod nb).
      assert (Ev : (t + v) mod nb = u).
      { unfold v. rewrite Nat.add_mod_idemp_r by lia.
        replace (t + (u + (nb - t))) with (u + 1 * nb) by lia.
        rewrite Nat.mod_add by lia. now apply Nat.mod_small. }
      assert (Hv : v < nb) by (apply Nat.mod_upper_bound; lia).
      assert (Hp : nb <= 2 ^ clg nb).
      { unfold clg. destruct (Nat.eq_dec nb 1) as [->|]; [simpl; lia|]. apply Nat.log2_up_spec. lia. }
      destruct (disseminate_upto mb nb i Hi Hnb Hm Hl Hw (clg nb) (le_n _) t v Ht ltac:(lia)) as (D1 & D2).
      rewrite Ev in *. rewrite cum_S. split.
      - intros d m Kn. eapply k_mono; [eauto|lia].
      - intros Ne. eapply k_mono; [eauto|lia].
    Qed.

    (* waiting once *)
    Lemma item_wait c i e : c < n -> i < M -> e < len i ->
      kn c (cum (S i)) (nth e (ws c i) 0) (cum i) /\
      (forall d m, kn (nth e (ws c i) 0) (cum i) d m -> kn c (cum (S i)) d m).
    Proof.
      intros Hc Hi He. pose proof (waits_iprog M c i e Hc Hi He) as W.
      assert (S (cum i + e) <= cum (S i)) by (rewrite cum_S; lia).
      split.
      - eapply k_mono; [eapply k_down; [eapply k_wait; eauto|]|]; lia.
      - intros d m Kn. eapply k_mono; [eapply k_trans; [eauto|]|eauto].
        eapply k_mono; [exact Kn|lia].
    Qed.
  End Know.

  (* ---- the lock step execution, item by item ---- *)
  Section Lock.
    Context {V : Type} (op : V -> V -> V) (send : nat -> Z -> V).
    Hypothesis acts_sep : forall c i, c < n -> 0 < i -> len i = 0 -> acts c i = [].

    Definition item_phase (i : nat) (m : Z -> V) : Z -> V :=
      fold_left (fun m c => segment op send c (acts c i) m) (seq 0 n) m.

    Lemma lock_items M m :
      lock n (iprog M) (cum M) op send m = fold_left (fun m i => item_phase i m) (seq 0 M) m.
    Proof.
      induction M as [|M IH].
      - unfold lock. simpl. apply fold_left_id. reflexivity.
      - rewrite (seq_S M 0), fold_left_app, <- IH. simpl. unfold lock.
        rewrite cum_S.
        replace (S (cum M + len M)) with (S (cum M) + len M) by lia.
        rewrite seq_app, fold_left_app. simpl (0 + S (cum M)).
        assert (Lt : forall c j, c < n -> j < cum M -> segm (iprog (S M) c) j = segm (iprog M c) j).
        { intros c j Hc Hj. rewrite iprog_S. apply segm_app_lt. now rewrite nW_iprog. }
        assert (Eq : forall c, c < n -> segm (iprog (S M) c) (cum M) =
                        segm (iprog M c) (cum M) ++ (if 0 =? len M then acts c M else [])).
        { intros c Hc. rewrite iprog_S, <- (nW_iprog M c Hc), segm_app_eq, segm_item; auto. }
        assert (Gt : forall c j, c < n -> cum M < j -> segm (iprog (S M) c) j =
                        if j - cum M =? len M then acts c M else []).
        { intros c j Hc Hj. rewrite iprog_S, segm_app_gt, nW_iprog, segm_item; auto.
          now rewrite nW_iprog. }
        destruct (Nat.eq_dec (len M) 0) as [L0|L0].
        + rewrite L0. change (seq (S (cum M)) 0) with (@nil nat). cbn [fold_left].
          destruct (Nat.eq_dec M 0) as [->|M0].
          * assert (C0 : cum 0 = 0) by reflexivity. rewrite C0 in *.
            simpl. unfold phase, item_phase.
            assert (Q : fold_left (fun (m : Z -> V) c => segment op send c (segm (iprog 0 c) 0) m) (seq 0 n) m = m)
              by (apply fold_left_id; reflexivity).
            rewrite Q. apply fold_left_eq. intros a c Ic. apply in_seq in Ic.
            rewrite Eq by lia. rewrite L0. reflexivity.
          * assert (Em : forall c, c < n -> acts c M = []) by (intros; apply acts_sep; auto; lia).
            unfold item_phase.
            rewrite (fold_left_id (fun m c => segment op send c (acts c M) m))
              by (intros a c Ic; apply in_seq in Ic; rewrite Em by lia; reflexivity).
            apply fold_left_eq. intros a j Ij. apply in_seq in Ij. unfold phase.
            apply fold_left_eq. intros a' c Ic. apply in_seq in Ic.
            destruct (Nat.eq_dec j (cum M)) as [->|Nj].
            -- rewrite Eq, L0, Em, app_nil_r by lia. reflexivity.
            -- rewrite Lt by lia. reflexivity.
        + assert (H1 : fold_left (fun m j => phase n (iprog (S M)) op send j m) (seq 0 (S (cum M))) m =
                       fold_left (fun m j => phase n (iprog M) op send j m) (seq 0 (S (cum M))) m).
          { apply fold_left_eq. intros a j Ij. apply in_seq in Ij. unfold phase.
            apply fold_left_eq. intros a' c Ic. apply in_seq in Ic.
            destruct (Nat.eq_dec j (cum M)) as [->|Nj].
            - rewrite Eq by lia. destruct (len M); [lia|]. simpl Nat.eqb. cbv iota. now rewrite app_nil_r.
            - rewrite Lt by lia. reflexivity. }
          rewrite H1. generalize (fold_left (fun m j => phase n (iprog M) op send j m) (seq 0 (S (cum M))) m).
          intros m1. replace (len M) with (S (len M - 1)) at 1 by lia.
          rewrite seq_S, fold_left_app. cbn [fold_left].
          rewrite (fold_left_id _ (seq (S (cum M)) (len M - 1))).
          2:{ intros a j Ij. apply in_seq in Ij. unfold phase. apply fold_left_id. intros a' c Ic.
              apply in_seq in Ic. rewrite Gt by lia. rewrite (proj2 (Nat.eqb_neq _ _)) by lia. reflexivity. }
          unfold phase, item_phase. apply fold_left_eq. intros a c Ic. apply in_seq in Ic.
          rewrite Gt by lia. rewrite (proj2 (Nat.eqb_eq _ _)) by lia. reflexivity.
    Qed.
  End Lock.
End Items.
