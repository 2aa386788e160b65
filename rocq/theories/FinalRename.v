(* Places in the shared memory become places in the user's buffers; reductions
   that are merged do the same. *)
From Verif Require Import Base RawModel MsgProofs FinalModel FinalPass FinalMerge.
Local Ltac Zify.zify_post_hook ::= idtac.

Section Rename.
  (* T: the length of the vector; lo, hi: the part of the second T places that stands for the receive buffer *)
  Context (T lo hi : nat) (big : bool).
  Definition window_ok : Prop := T <= lo /\ lo <= hi /\ hi <= 2 * T /\ (big = true -> lo = T).
  Definition ren (x : nat) : loc :=
    if x <? T then (Sendbuf, x) else if (lo <=? x) && (x <? hi) then (Recvbuf, x - lo) else (Shm 0, x).
  (* the places x, ..., x + n - 1 may be used together *)
  Definition usable (x n : nat) : Prop :=
    0 < n /\ (x + n <= T \/ (lo <= x /\ x + n <= hi /\ (big = false -> x = lo)) \/ 2 * T <= x).
  Context (W : window_ok).

  Lemma ren_low x : x < T -> ren x = (Sendbuf, x).
  Proof. intros H. unfold ren. apply Nat.ltb_lt in H. now rewrite H. Qed.
  Lemma ren_mid x : lo <= x < hi -> ren x = (Recvbuf, x - lo).
  Proof.
    intros H. unfold ren. destruct W as (W1 & _). replace (x <? T) with false by (symmetry; apply Nat.ltb_ge; lia).
    replace (lo <=? x) with true by (symmetry; apply Nat.leb_le; lia). replace (x <? hi) with true by (symmetry; apply Nat.ltb_lt; lia). reflexivity.
  Qed.
  Lemma ren_high x : T <= x -> x < lo \/ hi <= x -> ren x = (Shm 0, x).
  Proof.
    intros H H2. unfold ren. replace (x <? T) with false by (symmetry; apply Nat.ltb_ge; lia).
    destruct (Nat.leb_spec lo x), (Nat.ltb_spec x hi); cbn [andb]; auto; lia.
  Qed.
  Lemma ren_inj x y : ren x = ren y -> x = y.
  Proof.
    unfold ren. destruct (Nat.ltb_spec x T), (Nat.ltb_spec y T), (Nat.leb_spec lo x), (Nat.ltb_spec x hi), (Nat.leb_spec lo y), (Nat.ltb_spec y hi);
    cbn [andb]; intros E; try discriminate; injection E; intros; lia.
  Qed.
  Lemma usable_place x n : usable x n -> user_place T big (sm x) n = ren x.
  Proof.
    intros [Hn H]. destruct W as (W1 & W2 & W3 & W4). unfold user_place, sm. cbn [is_shm fst snd].
    destruct H as [H|[(H1 & H2 & H3)|H]].
    - apply Nat.leb_le in H as H'. rewrite H'. rewrite ren_low by lia. reflexivity.
    - replace (x + n <=? T) with false by (symmetry; apply Nat.leb_gt; lia).
      replace (x + n <=? 2 * T) with true by (symmetry; apply Nat.leb_le; lia).
      rewrite ren_mid by lia. destruct big.
      + now rewrite W4.
      + rewrite H3 by reflexivity. now rewrite Nat.sub_diag.
    - replace (x + n <=? T) with false by (symmetry; apply Nat.leb_gt; lia).
      replace (x + n <=? 2 * T) with false by (symmetry; apply Nat.leb_gt; lia).
      rewrite ren_high by lia. reflexivity.
  Qed.
  Lemma usable_off x n i : usable x n -> i < n -> ren (x + i) = at_off (ren x) i.
  Proof.
    intros [Hn H] Hi. destruct W as (W1 & W2 & W3 & W4). unfold at_off. destruct H as [H|[(H1 & H2 & H3)|H]].
    - rewrite !ren_low by lia. reflexivity.
    - rewrite !ren_mid by lia. cbn [fst snd]. f_equal. lia.
    - rewrite !ren_high by lia. reflexivity.
  Qed.
  Lemma inside_ren x n y : usable x n -> inside (ren x) n (ren y) = inside (sm x) n (sm y).
  Proof.
    intros U. apply eq_true_iff_eq. split; intros H.
    - apply inside_at in H. destruct H as (i & Hi & E). rewrite <- (usable_off x n i U Hi) in E. apply ren_inj in E. subst y.
      apply inside_spec. cbn. split; auto. lia.
    - apply inside_spec in H. cbn in H. replace y with (x + (y - x)) by lia. rewrite (usable_off x n) by (auto; lia). apply inside_off. lia.
  Qed.
  Lemma inside_ren_at x n a : usable x n -> inside (ren x) n a = true -> exists y, x <= y < x + n /\ a = ren y.
  Proof.
    intros U H. apply inside_at in H. destruct H as (i & Hi & E). rewrite <- (usable_off x n i U Hi) in E. exists (x + i). split; [lia|auto].
  Qed.
  Lemma ren_diff x n y : usable x n -> inside (sm x) n (sm y) = true -> at_off (ren x) (snd (ren y) - snd (ren x)) = ren y.
  Proof.
    intros U H. apply inside_spec in H. cbn in H. replace y with (x + (y - x)) by lia. rewrite (usable_off x n) by (auto; lia).
    unfold at_off. cbn [fst snd]. f_equal. lia.
  Qed.
  Lemma ren_shift x n y i : usable x n -> x <= y < x + n -> i = y - x -> snd (ren y) - snd (ren x) = i.
  Proof.
    intros U H ->. replace y with (x + (y - x)) at 1 by lia. rewrite (usable_off x n) by (auto; lia). unfold at_off. cbn [snd]. lia.
  Qed.

  Context {V : Type} (op : V -> V -> V).
  Notation memory := (@memory V).
  (* reductions *)
  Definition usable_red (i : instr) : Prop :=
    match i with Reduce_ (Shm 0, x) (Shm 0, y) n => usable x n /\ usable y n | _ => False end.
  Lemma use_red i : usable_red i -> exists x y n, i = Reduce_ (sm x) (sm y) n /\ usable x n /\ usable y n /\
    use T big [i] = [Reduce_ (ren x) (ren y) n].
  Proof.
    intros H. destruct i as [| | | | |d s n]; try (now destruct H). destruct d as [[| |[|?]] x]; try (now destruct H).
    destruct s as [[| |[|?]] y]; try (now destruct H). destruct H as [H1 H2]. exists x, y, n. repeat split; try apply H1; try apply H2.
    unfold use, no_socket_barriers. cbn [filter use_sendbuf_recvbuf flat_map use_line is_shm fst andb app].
    change (Shm 0, x) with (sm x). change (Shm 0, y) with (sm y). now rewrite !usable_place.
  Qed.
  Lemma ren_exec l : Forall usable_red l -> forall (m mf : memory), (forall x, m (sm x) = mf (ren x)) ->
    forall x, exec_list op l m (sm x) = exec_list op (use T big l) mf (ren x).
  Proof.
    induction 1 as [|i l Hi Hl IH]; intros m mf E; [exact E|]. change (i :: l) with ([i] ++ l). rewrite use_app, !exec_list_app.
    apply IH. destruct (use_red i Hi) as (x & y & n & -> & U1 & U2 & ->). intros z.
    cbn [exec_list fold_left exec_local]. rewrite inside_ren by exact U1. destruct (inside (sm x) n (sm z)) eqn:I; [|apply E].
    rewrite E. f_equal. apply inside_spec in I. cbn [sm fst snd] in I.
    rewrite (ren_shift x n z (z - x)) by (auto; lia).
    rewrite <- (usable_off y n) by (auto; lia). rewrite <- E. reflexivity.
  Qed.
  Lemma use_reds l : Forall usable_red l -> Forall (fun i => match i with Reduce_ _ _ _ => True | _ => False end) (use T big l).
  Proof.
    induction 1 as [|i l Hi Hl IH]; [constructor|]. change (i :: l) with ([i] ++ l). rewrite use_app.
    destruct (use_red i Hi) as (x & y & n & -> & _ & _ & ->). cbn. constructor; [exact I|exact IH].
  Qed.

  (* ---------- merging ---------- *)
  (* reductions of column c with other columns, from the first line to the last *)
  Record piece_red := PieceRed { pc : nat; pj : nat; pn : nat }.
  Section Column.
  Context (c : nat).
  Definition red_line (t : piece_red) : instr := Reduce_ (sm (c * T + pj t)) (sm (pc t * T + pj t)) (pn t).
  Definition red_ok (t : piece_red) : Prop :=
    pc t <> c /\ pj t + pn t <= T /\ usable (c * T + pj t) (pn t) /\ usable (pc t * T + pj t) (pn t).
  Fixpoint ascending (j0 : nat) (l : list piece_red) : Prop :=
    match l with [] => True | t :: r => j0 <= pj t /\ red_ok t /\ ascending (pj t) r end.
  Definition red_copy (t : piece_red) : copy := Copy true (sm (c * T + pj t)) (sm (pc t * T + pj t)) (pn t).
  Lemma ascending_usable l : forall j0, ascending j0 l -> Forall usable_red (map red_line l).
  Proof.
    induction l as [|t l IH]; cbn [map ascending]; intros j0 H; constructor.
    - destruct H as (_ & (_ & _ & A & B) & _). split; assumption.
    - eapply IH. apply H.
  Qed.
  Lemma usable_join k j n n' : usable (k * T + j) n -> usable (k * T + (j + n)) n' -> j + n + n' <= T -> usable (k * T + j) (n + n').
  Proof.
    intros [P1 U1] [P2 U2] H. destruct W as (W1 & W2 & W3 & W4). split; [lia|].
    assert (C : k = 0 \/ k = 1 \/ 2 <= k) by lia. destruct C as [->|[->|C]].
    - left. lia.
    - right. left. rewrite Nat.mul_1_l in *. destruct U1 as [U1|[(A & B & D)|U1]]; try lia.
      destruct U2 as [U2|[(A2 & B2 & D2)|U2]]; try lia. repeat split; auto; lia.
    - right. right. assert (2 * T <= k * T) by (apply Nat.mul_le_mono_r; lia). lia.
  Qed.
  Lemma join_exec c' j n n' (m : memory) : c' <> c -> j + n + n' <= T -> forall a,
    exec_local op (Reduce_ (sm (c * T + (j + n))) (sm (c' * T + (j + n))) n') (exec_local op (Reduce_ (sm (c * T + j)) (sm (c' * T + j)) n) m) a =
    exec_local op (Reduce_ (sm (c * T + j)) (sm (c' * T + j)) (n + n')) m a.
  Proof.
    intros C H a. cbn [exec_local]. unfold sm, inside, at_off. cbn [fst snd].
    destruct (buffer_eqb (Shm 0) (fst a)) eqn:E; cbn [andb]; [|reflexivity].
    destruct (Nat.leb_spec (c * T + (j + n)) (snd a)) as [A|A]; destruct (Nat.ltb_spec (snd a) (c * T + (j + n) + n')) as [B|B];
    destruct (Nat.leb_spec (c * T + j) (snd a)) as [A2|A2]; destruct (Nat.ltb_spec (snd a) (c * T + j + n)) as [B2|B2];
    destruct (Nat.ltb_spec (snd a) (c * T + j + (n + n'))) as [B3|B3]; cbn [andb]; try lia; try reflexivity.
    rewrite buffer_eqb_refl. cbn [andb].
    replace (c' * T + (j + n) + (snd a - (c * T + (j + n)))) with (c' * T + j + (snd a - (c * T + j))) by lia.
    destruct (Nat.leb_spec (c * T + j) (c' * T + j + (snd a - (c * T + j)))) as [P|P];
    destruct (Nat.ltb_spec (c' * T + j + (snd a - (c * T + j))) (c * T + j + n)) as [Q|Q]; cbn [andb]; try reflexivity.
    exfalso. destruct (lt_eq_lt_dec c c') as [[Lt| ->]|Gt]; [|lia|].
    - assert ((c + 1) * T <= c' * T) by (apply Nat.mul_le_mono_r; lia). lia.
    - assert ((c' + 1) * T <= c * T) by (apply Nat.mul_le_mono_r; lia). lia.
  Qed.
  Lemma column_eq j1 j2 c1 c2 : j1 < T -> j2 < T -> c1 * T + j1 = c2 * T + j2 -> c1 = c2.
  Proof.
    clear. intros A B E. destruct (lt_eq_lt_dec c1 c2) as [[Lt| ->]|Gt]; auto.
    - assert ((c1 + 1) * T <= c2 * T) by (apply Nat.mul_le_mono_r; lia). lia.
    - assert ((c2 + 1) * T <= c1 * T) by (apply Nat.mul_le_mono_r; lia). lia.
  Qed.
  Lemma forward_red ls : forall t j0, ascending j0 (t :: ls) -> exists t' ls',
    forward (red_copy t) (map red_line ls) = (red_copy t', map red_line ls') /\
    ascending j0 (t' :: ls') /\
    (forall (m : memory) a, exec_list op (map red_line (t' :: ls')) m a = exec_list op (map red_line (t :: ls)) m a) /\
    length ls' <= length ls.
  Proof.
    induction ls as [|u ls IH]; intros t j0 H.
    - exists t, []. cbn. auto.
    - cbn [map]. unfold red_line at 1. cbn [forward copy_of].
      destruct (_ && _ && _ && _) eqn:C.
      + rewrite !andb_true_iff in C. destruct C as [[[_ C1] C2] _]. cbn [dst src size sm snd red_copy] in C1, C2.
        apply Nat.eqb_eq in C1, C2. cbn [ascending] in H. destruct H as (H0 & (A1 & A2 & A3 & A4) & H1 & (B1 & B2 & B3 & B4) & H2).
        assert (EJ : pj u = pj t + pn t) by lia.
        assert (NP : 0 < pn u) by apply B3. assert (NT : 0 < pn t) by apply A3.
        assert (EC : pc t = pc u) by (apply (column_eq (pj t + pn t) (pj u)); lia).
        set (v := PieceRed (pc t) (pj t) (pn t + pn u)).
        destruct (IH v j0) as (t' & ls' & E & F1 & F2 & F3).
        { cbn [ascending]. split; [exact H0|]. split.
          - unfold red_ok, v. cbn [pc pj pn]. repeat split; try apply usable_join; auto; try lia; rewrite <- ?EJ; try rewrite EC; auto.
          - unfold v. cbn [pj]. destruct ls; cbn [ascending] in *; auto. destruct H2 as (H2 & H3 & H4). split; [lia|]. split; assumption. }
        exists t', ls'. split; [exact E|]. split; [exact F1|]. split; [|cbn; lia].
        intros m a. rewrite F2. cbn [map exec_list fold_left]. apply exec_list_ext. intros a'.
        unfold red_line at 2 3. rewrite EJ, <- EC. unfold v, red_line. cbn [pc pj pn]. symmetry. apply join_exec; auto. lia.
      + exists t, (u :: ls). auto.
  Qed.
  Lemma backward_red t ls j0 o1 o2 : ascending j0 (t :: ls) -> backward (red_copy t) o1 o2 (map red_line ls) = (red_copy t, (o1, o2), map red_line ls).
  Proof.
    intros H. destruct ls as [|u ls]; [reflexivity|]. cbn [map]. unfold red_line at 1. cbn [backward copy_of].
    destruct (_ && _ && _) eqn:C; [|reflexivity]. exfalso.
    rewrite !andb_true_iff in C. destruct C as [[_ C1] _]. cbn [dst src size sm snd red_copy] in C1. apply Nat.eqb_eq in C1.
    cbn [ascending] in H. destruct H as (_ & (_ & _ & [P _] & _) & H & _). lia.
  Qed.
  Lemma merge_red k : forall ls j0, length ls <= k -> ascending j0 ls -> exists ls',
    merge (map red_line ls) = map red_line ls' /\ ascending j0 ls' /\
    forall (m : memory) a, exec_list op (map red_line ls') m a = exec_list op (map red_line ls) m a.
  Proof.
    induction k as [|k IH]; intros ls j0 Hk H; destruct ls as [|t ls]; cbn [length] in Hk; try lia.
    - exists []. auto.
    - exists []. auto.
    - cbn [map]. rewrite (merge_copy _ (red_copy t)) by reflexivity. 
      destruct (forward_red ls t j0 H) as (t' & ls1 & E & F1 & F2 & F3).
      assert (S : exists t2 ls2, merge_step (red_copy t) (map red_line ls) = (red_copy t2, map red_line ls2) /\ ascending j0 (t2 :: ls2) /\
        (forall (m : memory) a, exec_list op (map red_line (t2 :: ls2)) m a = exec_list op (map red_line (t :: ls)) m a) /\ length ls2 <= length ls).
      { unfold merge_step. rewrite E. destruct (_ =? _).
        - rewrite (backward_red t ls j0) by exact H. exists t, ls. auto.
        - exists t', ls1. auto. }
      destruct S as (t2 & ls2 & -> & G1 & G2 & G3). cbn [fst snd].
      destruct (IH ls2 (pj t2)) as (ls3 & E3 & A3 & X3); [lia|apply G1|].
      exists (t2 :: ls3). rewrite E3. split; [reflexivity|]. split.
      + cbn [ascending] in *. tauto.
      + intros m a. rewrite <- G2. cbn [map exec_list fold_left]. apply X3.
  Qed.
  End Column.
End Rename.
