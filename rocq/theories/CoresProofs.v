(* Proofs about the sharing out of messages among the cores of a node. *)
From Coq Require Import Permutation.
From Verif Require Import Base SchedModel SchedSpec SchedProofs PermModel PermProofs CoresModel CoresSpec.
Local Ltac Zify.zify_post_hook ::= idtac.

(* ---------- counting ---------- *)
Lemma turn_count (g : nat) (f : nat -> nat) (S mark : nat -> bool) :
  f 0 = 0 -> (forall s s', s < s' < g -> f s < f s') ->
  (forall d, 0 < d -> (mark d = true <-> exists s, 0 < s < g /\ S s = true /\ f s = d)) ->
  forall s, 0 < s < g -> turn mark (f s) = length (filter S (seq 1 (s - 1))).
Proof.
  intros F0 Fm M s Hs. unfold turn.
  rewrite <- (map_length f (filter S _)). apply Permutation_length. apply NoDup_Permutation.
  - apply NoDup_filter, seq_NoDup.
  - assert (G : forall l, (forall x, In x l -> x < g) -> NoDup l -> NoDup (map f l)).
    { induction l as [|x l IH]; intros H N; [constructor|]. inversion N; subst. cbn [map]. constructor.
      - intros I. apply in_map_iff in I. destruct I as (y & E & I).
        assert (x < g) by (apply H; now left). assert (y < g) by (apply H; now right).
        destruct (Nat.lt_trichotomy x y) as [L|[->|L]]; [|contradiction|].
        + pose proof (Fm x y (conj L H1)). lia.
        + pose proof (Fm y x (conj L H0)). lia.
      - apply IH; auto. intros y I. apply H. now right. }
    apply G; [|apply NoDup_filter, seq_NoDup]. intros x I. apply filter_In in I. destruct I as [I _]. apply in_seq in I. lia.
  - intros d. rewrite filter_In, in_seq, in_map_iff. split.
    + intros [I Md]. apply M in Md; [|lia]. destruct Md as (s' & Hs' & S' & <-).
      exists s'. split; [reflexivity|]. rewrite filter_In, in_seq. split; [|assumption].
      destruct (Nat.lt_ge_cases s' s) as [L|L]; [lia|]. destruct (Nat.eq_dec s s') as [->|D]; [lia|].
      pose proof (Fm s s' ltac:(lia)). lia.
    + intros (s' & <- & I). rewrite filter_In, in_seq in I. destruct I as [I S'].
      pose proof (Fm s' s ltac:(lia)). assert (0 < f s') by (rewrite <- F0; apply Fm; lia).
      split; [lia|]. apply M; [lia|]. exists s'. repeat split; auto; lia.
Qed.

(* the distance of two numbers in one group, from the distance of the digits *)
Definition far (N w g t s : nat) : nat := if s <? t then s * w else N - (g - s) * w.
Lemma far_zero N w g t : 0 < t -> far N w g t 0 = 0.
Proof. intros H. unfold far. now rewrite (proj2 (Nat.ltb_lt 0 t) H). Qed.
Lemma far_mono N w g t : 0 < w -> w * g <= N -> forall s s', s < s' < g -> far N w g t s < far N w g t s'.
Proof.
  intros Hw HN s s' H. unfold far.
  assert (A : s * w < s' * w) by (apply Nat.mul_lt_mono_pos_r; lia).
  assert (B : (g - s) * w <= g * w) by (apply Nat.mul_le_mono_r; lia).
  assert (C : (g - s') * w < (g - s) * w) by (apply Nat.mul_lt_mono_pos_r; lia).
  assert (D : s' * w + (g - s') * w = g * w) by (rewrite <- Nat.mul_add_distr_r; f_equal; lia).
  rewrite (Nat.mul_comm w g) in HN.
  destruct (Nat.ltb_spec s t), (Nat.ltb_spec s' t); lia.
Qed.

(* ---------- numbers with a digit ---------- *)
Section Digit.
  Context (N w g : nat) (Hw : 0 < w) (Hg : 0 < g) (HN : N mod (w * g) = 0).
  Let digit x := x / w mod g.
  Lemma parts x : x = (x / (w * g)) * (w * g) + digit x * w + x mod w.
  Proof.
    unfold digit. rewrite <- Nat.div_div by lia.
    pose proof (Nat.div_mod x w ltac:(lia)). pose proof (Nat.div_mod (x / w) g ltac:(lia)).
    assert (E : w * (x / w) = w * (g * (x / w / g) + (x / w) mod g)) by (f_equal; assumption).
    rewrite Nat.mul_add_distr_l in E. nia.
  Qed.
  Lemma build_parts h a l : a < g -> l < w ->
    let x := h * (w * g) + a * w + l in x / (w * g) = h /\ digit x = a /\ x mod w = l.
  Proof.
    intros Ha Hl x. assert (B : a * w + l < w * g).
    { assert ((a + 1) * w <= g * w) by (apply Nat.mul_le_mono_r; lia). lia. }
    assert (X1 : x / (w * g) = h) by (unfold x; rewrite <- Nat.add_assoc, Nat.div_add_l by nia; rewrite Nat.div_small; lia).
    assert (X2 : x = (h * g + a) * w + l) by (unfold x; nia).
    assert (X3 : x / w = h * g + a) by (rewrite X2, Nat.div_add_l by lia; rewrite Nat.div_small; lia).
    split; [assumption|]. split.
    - unfold digit. rewrite X3, Nat.add_comm, Nat.mod_add by lia. now apply Nat.mod_small.
    - rewrite X2, Nat.add_comm, Nat.mod_add by lia. now apply Nat.mod_small.
  Qed.
  Lemma digit_lt x : digit x < g.
  Proof. apply Nat.mod_upper_bound. lia. Qed.
  Lemma group_room h : h * (w * g) < N -> h * (w * g) + w * g <= N.
  Proof.
    intros H. pose proof (Nat.div_mod N (w * g) ltac:(nia)) as E. rewrite HN, Nat.add_0_r in E.
    rewrite E in H |- *. rewrite (Nat.mul_comm _ (N / _)) in *.
    assert (h < N / (w * g)) by (apply Nat.mul_lt_mono_pos_r with (w * g); nia).
    assert ((h + 1) * (w * g) <= N / (w * g) * (w * g)) by (apply Nat.mul_le_mono_r; lia). lia.
  Qed.
  Lemma wg_le x : x < N -> w * g <= N.
  Proof. intros H. pose proof (group_room 0 ltac:(lia)). lia. Qed.

  (* P sends to Q: the distance seen by P and by Q *)
  Lemma distance P Q : P < N -> Q < N -> Q mod w = P mod w -> Q / (w * g) = P / (w * g) ->
    let s := (digit P + g - digit Q) mod g in
    (P + N - Q) mod N = far N w g (digit P + 1) s /\ (P + N - Q) mod N = far N w g (g - digit Q) s.
  Proof.
    intros HP HQ El Eh s. pose proof (parts P) as EP. pose proof (parts Q) as EQ. rewrite El, Eh in EQ.
    pose proof (digit_lt P) as DP. pose proof (digit_lt Q) as DQ. pose proof (wg_le P HP) as HW.
    set (a := digit P) in *. set (b := digit Q) in *. set (h := P / (w * g) * (w * g)) in *. set (l := P mod w) in *.
    clearbody a b h l. clear El Eh.
    assert (W : forall k, k < g -> k * w < w * g) by (intros k Hk; rewrite Nat.mul_comm; apply Nat.mul_lt_mono_pos_l; lia).
    destruct (Nat.le_gt_cases b a) as [L|L].
    - assert (Es : s = a - b) by (unfold s; replace (a + g - b) with (a - b + 1 * g) by lia; rewrite Nat.mod_add by lia; apply Nat.mod_small; lia).
      rewrite Es. assert (E : P + N - Q = (a - b) * w + 1 * N) by (rewrite Nat.mul_sub_distr_r; pose proof (Nat.mul_le_mono_r b a w L); lia).
      rewrite E, Nat.mod_add by lia. pose proof (W (a - b) ltac:(lia)). rewrite Nat.mod_small by lia.
      unfold far. destruct (Nat.ltb_spec (a - b) (a + 1)); [|lia]. destruct (Nat.ltb_spec (a - b) (g - b)); [auto|lia].
    - assert (Es : s = a + g - b) by (unfold s; apply Nat.mod_small; lia).
      rewrite Es. pose proof (W (b - a) ltac:(lia)) as Wb.
      assert (E : P + N - Q = N - (b - a) * w) by (rewrite Nat.mul_sub_distr_r in *; pose proof (Nat.mul_le_mono_r a b w ltac:(lia)); lia).
      rewrite E. assert (0 < (b - a) * w) by (apply Nat.mul_pos_pos; lia). rewrite Nat.mod_small by lia.
      unfold far. replace (g - (a + g - b)) with (b - a) by lia.
      destruct (Nat.ltb_spec (a + g - b) (a + 1)); [lia|]. destruct (Nat.ltb_spec (a + g - b) (g - b)); [lia|auto].
  Qed.
  (* the members of the group of x at digit distance k, before and after x *)
  Lemma other_digit x k : x < N -> k < g ->
    (exists P, P < N /\ x mod w = P mod w /\ x / (w * g) = P / (w * g) /\ (digit P + g - digit x) mod g = k) /\
    (exists P, P < N /\ P mod w = x mod w /\ P / (w * g) = x / (w * g) /\ (digit x + g - digit P) mod g = k).
  Proof.
    intros Hx Hk. pose proof (digit_lt x) as Dx. pose proof (parts x) as X.
    assert (B : x mod w < w) by (apply Nat.mod_upper_bound; lia).
    assert (Room : forall a, a < g -> x / (w * g) * (w * g) + a * w + x mod w < N).
    { intros a Ha. assert (H : x / (w * g) * (w * g) < N) by (clear - X Hx; lia). pose proof (group_room _ H) as G.
      assert (E : a * w + w <= w * g).
      { rewrite (Nat.mul_comm w g). replace (a * w + w) with ((a + 1) * w) by (clear; lia). apply Nat.mul_le_mono_r. clear - Ha; lia. }
      clear - G E B. lia. }
    split.
    - set (a := (digit x + k) mod g). assert (A : a < g) by (apply Nat.mod_upper_bound; lia).
      destruct (build_parts (x / (w * g)) a (x mod w) A B) as (P1 & P2 & P3).
      exists (x / (w * g) * (w * g) + a * w + x mod w). rewrite P1, P2, P3. repeat split; auto.
      unfold a. clear - Dx Hk. set (e := digit x) in *. clearbody e. destruct (Nat.lt_ge_cases (e + k) g) as [L|L].
      + rewrite (Nat.mod_small (e + k)) by auto. replace (e + k + g - e) with (k + 1 * g) by lia.
        rewrite Nat.mod_add by lia. apply Nat.mod_small; lia.
      + replace (e + k) with (e + k - g + 1 * g) at 1 by lia. rewrite Nat.mod_add by lia.
        rewrite (Nat.mod_small (e + k - g)) by lia. replace (e + k - g + g - e) with k by lia. apply Nat.mod_small; lia.
    - set (a := (digit x + g - k) mod g). assert (A : a < g) by (apply Nat.mod_upper_bound; lia).
      destruct (build_parts (x / (w * g)) a (x mod w) A B) as (P1 & P2 & P3).
      exists (x / (w * g) * (w * g) + a * w + x mod w). rewrite P1, P2, P3. repeat split; auto.
      unfold a. clear - Dx Hk. set (e := digit x) in *. clearbody e. destruct (Nat.lt_ge_cases e k) as [L|L].
      + rewrite (Nat.mod_small (e + g - k)) by lia. replace (e + g - (e + g - k)) with k by lia. apply Nat.mod_small; lia.
      + replace (e + g - k) with (e - k + 1 * g) by lia. rewrite Nat.mod_add by lia.
        rewrite (Nat.mod_small (e - k)) by lia. replace (e + g - (e - k)) with (k + 1 * g) by lia.
        rewrite Nat.mod_add by lia. apply Nat.mod_small; lia.
  Qed.
End Digit.

(* ---------- the entries ---------- *)
Section Share.
  Context (N : nat) (perm : list nat) (Hperm : Permutation perm (seq 0 N)) (c : nat) (Hc : 0 < c).
  Let num x := nth x perm 0.
  (* the index under which nodes p and q file a message from p to q *)
  Definition gap (p q : nat) : nat := (num p + N - num q) mod N.

  Lemma pm_num x : pm perm (zz x) = zz (num x).
  Proof. unfold pm, zz. now rewrite Nat2Z.id. Qed.
  Lemma bk_num x : x < N -> bk perm (zz (num x)) = zz x.
  Proof. intros H. unfold bk, zz. rewrite Nat2Z.id. f_equal. now apply (back_left perm N Hperm). Qed.
  Lemma num_lt x : x < N -> num x < N.
  Proof. apply (perm_bound perm N Hperm). Qed.

  Lemma zrem_nat a b : 0 < b -> Z.rem (zz a) (zz b) = zz (a mod b).
  Proof. intros H. unfold zz. rewrite Z.rem_mod_nonneg by lia. now rewrite Nat2Z.inj_mod. Qed.
  Lemma zquot_nat a b : 0 < b -> Z.quot (zz a) (zz b) = zz (a / b).
  Proof. intros H. unfold zz. rewrite Z.quot_div_nonneg by lia. now rewrite Nat2Z.inj_div. Qed.

  Lemma send_index_gap p q : p < N -> q < N -> send_index N perm p (zz q) = zz (gap p q).
  Proof.
    intros Hp Hq. unfold send_index. rewrite !pm_num. pose proof (num_lt p Hp). pose proof (num_lt q Hq).
    replace (- zz (num q) + zz (num p) + zz N)%Z with (zz (num p + N - num q)) by (unfold zz; lia).
    apply zrem_nat. lia.
  Qed.
  Lemma recv_index_gap p q : p < N -> q < N -> recv_index N perm q (zz p) = zz (gap p q).
  Proof.
    intros Hp Hq. unfold recv_index. rewrite !pm_num. pose proof (num_lt p Hp). pose proof (num_lt q Hq).
    replace (zz (num p) - zz (num q) + zz N)%Z with (zz (num p + N - num q)) by (unfold zz; lia).
    apply zrem_nat. lia.
  Qed.
  Lemma gap_pos p q : p < N -> q < N -> p <> q -> 0 < gap p q < N.
  Proof.
    intros Hp Hq D. pose proof (num_lt p Hp). pose proof (num_lt q Hq).
    assert (num p <> num q) by (intros E; apply D; apply (perm_inj perm N Hperm); auto).
    unfold gap. split; [|apply Nat.mod_upper_bound; lia].
    destruct (Nat.lt_ge_cases (num p) (num q)).
    - rewrite Nat.mod_small; lia.
    - replace (num p + N - num q) with (num p - num q + 1 * N) by lia. rewrite Nat.mod_add by lia. rewrite Nat.mod_small; lia.
  Qed.
  Lemma gap_to p q : p < N -> q < N -> (num p + N - gap p q) mod N = num q.
  Proof.
    intros Hp Hq. pose proof (num_lt p Hp). pose proof (num_lt q Hq). unfold gap.
    destruct (Nat.lt_ge_cases (num p) (num q)).
    - rewrite (Nat.mod_small (num p + N - num q)) by lia. replace (num p + N - (num p + N - num q)) with (num q) by lia. apply Nat.mod_small; lia.
    - replace (num p + N - num q) with (num p - num q + 1 * N) by lia. rewrite Nat.mod_add by lia.
      rewrite (Nat.mod_small (num p - num q)) by lia. replace (num p + N - (num p - num q)) with (num q + 1 * N) by lia.
      rewrite Nat.mod_add by lia. apply Nat.mod_small; lia.
  Qed.
  Lemma gap_from p q : p < N -> q < N -> (num q + gap p q) mod N = num p.
  Proof.
    intros Hp Hq. pose proof (num_lt p Hp). pose proof (num_lt q Hq). unfold gap. rewrite Nat.add_mod_idemp_r by lia.
    replace (num q + (num p + N - num q)) with (num p + 1 * N) by lia. rewrite Nat.mod_add by lia. apply Nat.mod_small; lia.
  Qed.
  Lemma gap_inj p q q' : p < N -> q < N -> q' < N -> gap p q = gap p q' -> q = q'.
  Proof. intros Hp Hq Hq' E. apply (perm_inj perm N Hperm); auto. fold (num q) (num q'). rewrite <- (gap_to p q), <- (gap_to p q') by auto. now rewrite E. Qed.
  Lemma gap_inj_l p p' q : p < N -> p' < N -> q < N -> gap p q = gap p' q -> p = p'.
  Proof. intros Hp Hp' Hq E. apply (perm_inj perm N Hperm); auto. fold (num p) (num p'). rewrite <- (gap_from p q), <- (gap_from p' q) by auto. now rewrite E. Qed.

  Definition fake (q r : nat) : Z := (- zz (q * c) - 10 - zz r)%Z.
  Definition core_entry (o q r : nat) : Z := if o =? r then zz (q * c + r) else fake q r.

  Lemma mod_scale a b : 0 < b -> (a * c) mod (b * c) = a mod b * c.
  Proof. intros H. rewrite Nat.mul_mod_distr_r by lia. reflexivity. Qed.
  Lemma back_rank x r : x < N -> r < c ->
    (bk perm (Z.quot (zz (num x * c) + zz r) (zz c)) * zz c + Z.rem (zz (num x * c) + zz r) (zz c))%Z = zz (x * c + r).
  Proof.
    intros Hx Hr. replace (zz (num x * c) + zz r)%Z with (zz (num x * c + r)) by (unfold zz; lia).
    rewrite zquot_nat, zrem_nat by lia. rewrite Nat.div_add_l by lia. rewrite Nat.div_small, Nat.add_0_r by lia.
    rewrite bk_num by auto. rewrite Nat.add_comm, Nat.mod_add, Nat.mod_small by lia. unfold zz. lia.
  Qed.

  (* rank_of with the value of slot, given the number reached *)
  Lemma rank_at node sign (r d x o : nat) : r < c -> x < N -> 0 < d ->
    (forall k, (k = zz (d * c)) -> Z.rem (sign * k + pm perm (zz node) * zz c + zz N * zz c) (zz N * zz c) = zz (num x * c))%Z ->
    rank_of N perm node c r sign (if negb (o =? r)%nat then - zz d * zz c - 10 else zz d * zz c)%Z = core_entry o x r.
  Proof.
    intros Hr Hx Hd E. assert (Hdc : (zz d * zz c)%Z = zz (d * c)) by (unfold zz; lia).
    unfold rank_of, core_entry. destruct (Nat.eqb_spec o r) as [->|D]; cbn [negb].
    - destruct (Z.leb_spec 0 (zz d * zz c)) as [L|L]; [|unfold zz in L; lia].
      rewrite (E _ Hdc). now apply back_rank.
    - replace (- zz d * zz c - 10)%Z with (- zz (d * c) - 10)%Z by (unfold zz; lia).
      destruct (Z.leb_spec 0 (- zz (d * c) - 10)) as [L|L]; [unfold zz in L; lia|].
      rewrite (E (- (- zz (d * c) - 10) - 10)%Z) by lia.
      rewrite zquot_nat, Nat.div_mul by lia. rewrite bk_num by auto. unfold fake, zz. lia.
  Qed.

  (* the core responsible for the index d *)
  Definition duty (mark : nat -> bool) (d : nat) : nat := turn mark d mod c.
  Lemma duty_lt mark d : duty mark d < c.
  Proof. apply Nat.mod_upper_bound. lia. Qed.

  Lemma send_value p q r mark : p < N -> q < N -> p <> q -> r < c -> mark (gap p q) = true ->
    share N perm p c r (-1) (send_index N perm p) mark (zz q) = core_entry (duty mark (gap p q)) q r.
  Proof.
    intros Hp Hq D Hr M. pose proof (gap_pos p q Hp Hq D) as G. unfold share, restored.
    destruct (Z.leb_spec (zz q) (-10)); [unfold zz in *; lia|]. destruct (Z.leb_spec 0 (zz q)); [|unfold zz in *; lia].
    rewrite send_index_gap by auto. unfold zz at 1. rewrite Nat2Z.id. unfold slot.
    destruct (Nat.eqb_spec (gap p q) 0); [lia|]. rewrite M. fold (duty mark (gap p q)).
    apply rank_at; auto; [lia|]. intros k ->. rewrite pm_num.
    rewrite <- (gap_to p q) by auto. pose proof (num_lt p Hp).
    replace (-1 * zz (gap p q * c) + zz (num p) * zz c + zz N * zz c)%Z with (zz ((num p + N - gap p q) * c)).
    - replace (zz N * zz c)%Z with (zz (N * c)) by (unfold zz; lia). rewrite zrem_nat by nia. rewrite mod_scale by lia. reflexivity.
    - rewrite Nat.mul_sub_distr_r, Nat.mul_add_distr_r. unfold zz. assert (gap p q * c <= N * c) by (apply Nat.mul_le_mono_r; lia). lia.
  Qed.
  Lemma recv_value p q r mark : p < N -> q < N -> p <> q -> r < c -> mark (gap p q) = true ->
    share N perm q c r 1 (recv_index N perm q) mark (zz p) = core_entry (duty mark (gap p q)) p r.
  Proof.
    intros Hp Hq D Hr M. pose proof (gap_pos p q Hp Hq D) as G. unfold share, restored.
    destruct (Z.leb_spec (zz p) (-10)); [unfold zz in *; lia|]. destruct (Z.leb_spec 0 (zz p)); [|unfold zz in *; lia].
    rewrite recv_index_gap by auto. unfold zz at 1. rewrite Nat2Z.id. unfold slot.
    destruct (Nat.eqb_spec (gap p q) 0); [lia|]. rewrite M. fold (duty mark (gap p q)).
    apply rank_at; auto; [lia|]. intros k ->. rewrite pm_num.
    rewrite <- (gap_from p q) by auto.
    replace (1 * zz (gap p q * c) + zz (num q) * zz c + zz N * zz c)%Z with (zz ((num q + gap p q + 1 * N) * c)) by (unfold zz; lia).
    replace (zz N * zz c)%Z with (zz (N * c)) by (unfold zz; lia). rewrite zrem_nat by nia. rewrite mod_scale by lia.
    rewrite Nat.mod_add by lia. reflexivity.
  Qed.

  (* ---------- blocks ---------- *)
  Context (blk : nat -> block) (WM : well_matched N blk).
  (* the block of a core *)
  Definition core_block (k : nat) : block := tasks_node N perm (k / c) c (k mod c) (blk (k / c)).
  Lemma core_at p r : r < c -> core_block (p * c + r) = tasks_node N perm p c r (blk p).
  Proof.
    intros Hr. unfold core_block. rewrite Nat.div_add_l by lia. rewrite Nat.div_small, Nat.add_0_r by lia.
    now rewrite Nat.add_comm, Nat.mod_add, Nat.mod_small by lia.
  Qed.
  Lemma entry_ok p n e : p < N -> n < num_lines (blk p) -> In e (sendto (lines (blk p) n) ++ recvfrom (lines (blk p) n)) ->
    fst e = (-1)%Z \/ exists q, q < N /\ q <> p /\ fst e = zz q.
  Proof.
    intros Hp Hn I. destruct WM as [_ W]. destruct (W p n Hp Hn) as [F _]. rewrite Forall_forall in F.
    destruct (F e I) as [[E|E] D]; [now left|right]. exists (Z.to_nat (fst e)). unfold zz. lia.
  Qed.

  Definition smark p := marked (send_index N perm p) sendto (blk p).
  Definition rmark q := marked (recv_index N perm q) recvfrom (blk q).
  Lemma in_partners entries b x : In x (partners entries b) <->
    (0 <= x)%Z /\ exists n e, n < num_lines b /\ In e (entries (lines b n)) /\ x = restored (fst e).
  Proof.
    unfold partners. rewrite filter_In, Z.leb_le, in_flat_map. split.
    - intros [(n & I & J) H]. split; auto. apply in_seq in I. apply in_map_iff in J. destruct J as (e & <- & J). exists n, e. repeat split; auto; lia.
    - intros (H & n & e & Hn & J & ->). split; auto. exists n. split; [apply in_seq; lia|]. apply (in_map (fun e => restored (fst e)) _ _ J).
  Qed.
  Lemma restored_node q : restored (zz q) = zz q.
  Proof. unfold restored. destruct (Z.leb_spec (zz q) (-10)); [unfold zz in *; lia|reflexivity]. Qed.

  Lemma sends_entry p q : (sent_lines blk p q <> [] <-> exists n e, n < num_lines (blk p) /\ In e (sendto (lines (blk p) n)) /\ fst e = zz q).
  Proof.
    unfold sent_lines. split.
    - intros H. destruct (flat_map _ _) as [|m l] eqn:E; [congruence|].
      assert (I : In m (m :: l)) by now left. rewrite <- E in I. apply in_flat_map in I. destruct I as (n & I & J).
      apply in_map_iff in J. destruct J as (e & _ & J). apply filter_In in J. destruct J as [J K]. apply Z.eqb_eq in K.
      apply in_seq in I. exists n, e. repeat split; auto; lia.
    - intros (n & e & Hn & I & E) H. assert (J : In n []); [|destruct J]. rewrite <- H. apply in_flat_map. exists n. split; [apply in_seq; lia|].
      apply in_map_iff. exists e. split; auto. apply filter_In. split; auto. now apply Z.eqb_eq.
  Qed.
  Lemma recvs_entry p q : (recv_lines blk q p <> [] <-> exists n e, n < num_lines (blk q) /\ In e (recvfrom (lines (blk q) n)) /\ fst e = zz p).
  Proof.
    unfold recv_lines. split.
    - intros H. destruct (filter _ _) as [|n l] eqn:E; [congruence|].
      assert (I : In n (n :: l)) by now left. rewrite <- E in I. apply filter_In in I. destruct I as (I & J).
      apply existsb_exists in J. destruct J as (e & J & K). apply Z.eqb_eq in K.
      apply in_seq in I. exists n, e. repeat split; auto; lia.
    - intros (n & e & Hn & I & E) H. assert (J : In n []); [|destruct J]. rewrite <- H. apply filter_In. split; [apply in_seq; lia|].
      apply existsb_exists. exists e. split; auto. now apply Z.eqb_eq.
  Qed.
  Lemma paired p q : p < N -> q < N -> p <> q -> (sent_lines blk p q <> [] <-> recv_lines blk q p <> []).
  Proof.
    intros Hp Hq D. destruct WM as [W _]. destruct (W p q Hp Hq D) as [E _].
    apply (f_equal (@length nat)) in E. rewrite !map_length in E.
    destruct (sent_lines blk p q), (recv_lines blk q p); cbn in E; split; intros; congruence.
  Qed.

  Lemma smark_gap p d : p < N -> 0 < d -> (smark p d = true <-> exists q, q < N /\ q <> p /\ sent_lines blk p q <> [] /\ gap p q = d).
  Proof.
    intros Hp Hd. unfold smark, marked. rewrite existsb_exists. split.
    - intros (x & I & E). apply Z.eqb_eq in E. apply in_partners in I. destruct I as (P & n & e & Hn & I & ->).
      destruct (entry_ok p n e Hp Hn) as [X|(q & Hq & D & X)]; [apply in_or_app; now left|rewrite X in P; cbn in P; lia|].
      rewrite X, restored_node, send_index_gap in E by auto. exists q. split; [auto|]. split; [auto|]. split; [|unfold zz in E; lia].
      apply sends_entry. exists n, e. auto.
    - intros (q & Hq & D & S & <-). apply sends_entry in S. destruct S as (n & e & Hn & I & E).
      exists (zz q). split; [|apply Z.eqb_eq, send_index_gap; auto].
      apply in_partners. split; [unfold zz; lia|]. exists n, e. rewrite E, restored_node. auto.
  Qed.
  Lemma rmark_gap q d : q < N -> 0 < d -> (rmark q d = true <-> exists p, p < N /\ p <> q /\ sent_lines blk p q <> [] /\ gap p q = d).
  Proof.
    intros Hq Hd. unfold rmark, marked. rewrite existsb_exists. split.
    - intros (x & I & E). apply Z.eqb_eq in E. apply in_partners in I. destruct I as (P & n & e & Hn & I & ->).
      destruct (entry_ok q n e Hq Hn) as [X|(p & Hp & D & X)]; [apply in_or_app; now right|rewrite X in P; cbn in P; lia|].
      rewrite X, restored_node, recv_index_gap in E by auto. exists p. split; [auto|]. split; [auto|]. split; [|unfold zz in E; lia].
      apply paired; auto. apply recvs_entry. exists n, e. auto.
    - intros (p & Hp & D & S & <-). apply paired in S; auto. apply recvs_entry in S. destruct S as (n & e & Hn & I & E).
      exists (zz p). split; [|apply Z.eqb_eq, recv_index_gap; auto].
      apply in_partners. split; [unfold zz; lia|]. exists n, e. rewrite E, restored_node. auto.
  Qed.

  (* ---------- the blocks of the cores ---------- *)
  Definition sent_entry p r (e : Z * nat) : Z * nat := (share N perm p c r (-1) (send_index N perm p) (smark p) (fst e), snd e).
  Definition recv_entry q r (e : Z * nat) : Z * nat := (share N perm q c r 1 (recv_index N perm q) (rmark q) (fst e), snd e).
  Lemma shared_all sign idx mark p r es : (forall e, In e es -> (-10 < fst e)%Z) ->
    shared N perm p c r sign idx mark es = map Some (map (fun e => (share N perm p c r sign idx mark (fst e), snd e)) es).
  Proof.
    intros H. unfold shared. rewrite map_map. apply map_ext_in. intros e I. specialize (H e I).
    destruct (Z.leb_spec (fst e) (-10)); [lia|reflexivity].
  Qed.
  Lemma remaining_all p r j (l : list (Z * nat)) : remaining p c r (map Some l) j = l.
  Proof.
    destruct l as [|e l]; [reflexivity|]. cbn [map remaining]. f_equal.
    induction l as [|x l IH]; [reflexivity|]. cbn [map flat_map app]. now rewrite IH.
  Qed.
  Lemma entry_high p n e : p < N -> n < num_lines (blk p) -> In e (sendto (lines (blk p) n) ++ recvfrom (lines (blk p) n)) -> (-10 < fst e)%Z.
  Proof. intros Hp Hn I. destruct (entry_ok p n e Hp Hn I) as [E|(q & _ & _ & E)]; rewrite E; unfold zz; lia. Qed.
  Lemma core_sendto p r n : p < N -> r < c -> n < num_lines (blk p) ->
    sendto (lines (core_block (p * c + r)) n) = map (sent_entry p r) (sendto (lines (blk p) n)).
  Proof.
    intros Hp Hr Hn. rewrite core_at by auto. cbn [tasks_node lines sendto]. unfold send_share.
    rewrite shared_all, remaining_all.
    - rewrite map_map. generalize (sendto (lines (blk p) n)). induction l as [|e l IH]; [reflexivity|]. cbn [map combine]. now rewrite IH.
    - intros e I. apply (entry_high p n e Hp Hn). apply in_or_app. now left.
  Qed.
  Lemma core_recvfrom p r n : p < N -> r < c -> n < num_lines (blk p) ->
    recvfrom (lines (core_block (p * c + r)) n) = map (recv_entry p r) (recvfrom (lines (blk p) n)).
  Proof.
    intros Hp Hr Hn. rewrite core_at by auto. cbn [tasks_node lines recvfrom]. unfold recv_share.
    rewrite shared_all, remaining_all; [reflexivity|].
    intros e I. apply (entry_high p n e Hp Hn). apply in_or_app. now right.
  Qed.
  Lemma share_gone p r sign idx mark : share N perm p c r sign idx mark (-1) = (-1)%Z.
  Proof. reflexivity. Qed.
  Lemma core_hit o q' q r r' : r < c -> r' < c ->
    (core_entry o q' r =? zz (q * c + r'))%Z = ((q' =? q) && ((r =? o) && (r' =? o))).
  Proof.
    intros Hr Hr'. unfold core_entry, fake. destruct (Nat.eqb_spec o r) as [->|D].
    - rewrite Nat.eqb_refl, andb_true_l. destruct (Nat.eqb_spec q' q) as [->|Dq], (Nat.eqb_spec r' r) as [->|Dr]; cbn [andb].
      + now apply Z.eqb_eq.
      + apply Z.eqb_neq. unfold zz. lia.
      + apply Z.eqb_neq. intros E. unfold zz in E. apply Dq. apply (Nat.div_unique (q' * c + r) c q r) in Hr; [|lia].
        rewrite Nat.div_add_l in Hr by lia. rewrite Nat.div_small in Hr; lia.
      + apply Z.eqb_neq. intros E. apply Dr. assert (X : q' * c + r = q * c + r') by (unfold zz in E; lia).
        apply (f_equal (fun x => x mod c)) in X. rewrite !(Nat.add_comm (_ * c)), !Nat.mod_add, !Nat.mod_small in X; lia.
    - replace (r =? o) with false by (symmetry; apply Nat.eqb_neq; auto). cbn [andb]. rewrite andb_false_r.
      apply Z.eqb_neq. unfold zz. lia.
  Qed.
  Lemma sent_hit p q n e r r' : p < N -> q < N -> r < c -> r' < c -> n < num_lines (blk p) -> In e (sendto (lines (blk p) n)) ->
    (fst (sent_entry p r e) =? zz (q * c + r'))%Z =
    (fst e =? zz q)%Z && ((r =? duty (smark p) (gap p q)) && (r' =? duty (smark p) (gap p q))).
  Proof.
    intros Hp Hq Hr Hr' Hn I. cbn [sent_entry fst].
    destruct (entry_ok p n e Hp Hn (in_or_app _ _ _ (or_introl I))) as [E|(q' & Hq' & D & E)]; rewrite E.
    - rewrite share_gone. unfold zz. replace (-1 =? Z.of_nat (q * c + r'))%Z with false by (symmetry; apply Z.eqb_neq; lia).
      now replace (-1 =? Z.of_nat q)%Z with false by (symmetry; apply Z.eqb_neq; lia).
    - assert (M : smark p (gap p q') = true).
      { pose proof (gap_pos p q' Hp Hq' ltac:(auto)). apply smark_gap; [auto|lia|]. exists q'. repeat split; auto. apply sends_entry. exists n, e. auto. }
      rewrite (send_value p q' r (smark p)) by auto. rewrite core_hit by auto.
      destruct (Nat.eqb_spec q' q) as [->|Dq]; [rewrite Z.eqb_refl; reflexivity|].
      now replace (zz q' =? zz q)%Z with false by (symmetry; apply Z.eqb_neq; unfold zz; lia).
  Qed.
  Lemma recv_hit p q n e r r' : p < N -> q < N -> r < c -> r' < c -> n < num_lines (blk q) -> In e (recvfrom (lines (blk q) n)) ->
    (fst (recv_entry q r' e) =? zz (p * c + r))%Z =
    (fst e =? zz p)%Z && ((r =? duty (rmark q) (gap p q)) && (r' =? duty (rmark q) (gap p q))).
  Proof.
    intros Hp Hq Hr Hr' Hn I. cbn [recv_entry fst].
    destruct (entry_ok q n e Hq Hn (in_or_app _ _ _ (or_intror I))) as [E|(p' & Hp' & D & E)]; rewrite E.
    - rewrite share_gone. unfold zz. replace (-1 =? Z.of_nat (p * c + r))%Z with false by (symmetry; apply Z.eqb_neq; lia).
      now replace (-1 =? Z.of_nat p)%Z with false by (symmetry; apply Z.eqb_neq; lia).
    - assert (M : rmark q (gap p' q) = true).
      { pose proof (gap_pos p' q Hp' Hq D). apply rmark_gap; [auto|lia|]. exists p'. repeat split; auto. apply paired; auto. apply recvs_entry. exists n, e. auto. }
      rewrite (recv_value p' q r' (rmark q)) by auto. rewrite core_hit by auto. rewrite (andb_comm (r' =? _)).
      destruct (Nat.eqb_spec p' p) as [->|Dq]; [rewrite Z.eqb_refl; reflexivity|].
      now replace (zz p' =? zz p)%Z with false by (symmetry; apply Z.eqb_neq; unfold zz; lia).
  Qed.
  Lemma core_lines p r : r < c -> num_lines (core_block (p * c + r)) = num_lines (blk p).
  Proof. intros Hr. now rewrite core_at. Qed.
  Lemma filter_map_gen {A B} (f : A -> B) (h : B -> bool) l : filter h (map f l) = map f (filter (fun x => h (f x)) l).
  Proof. induction l as [|x l IH]; [reflexivity|]. cbn [map filter]. destruct (h (f x)); cbn [map]; now rewrite IH. Qed.
  Lemma core_sent p q r r' : p < N -> q < N -> r < c -> r' < c ->
    sent_lines core_block (p * c + r) (q * c + r') =
    if (r =? duty (smark p) (gap p q)) && (r' =? duty (smark p) (gap p q)) then sent_lines blk p q else [].
  Proof.
    intros Hp Hq Hr Hr'. set (t := (r =? _) && _). unfold sent_lines. rewrite core_lines by auto.
    transitivity (flat_map (fun n => if t then map (fun _ => n) (filter (fun e => (fst e =? Z.of_nat q)%Z) (sendto (lines (blk p) n))) else []) (seq 0 (num_lines (blk p)))).
    - rewrite !flat_map_concat_map. f_equal. apply map_ext_in. intros n I. apply in_seq in I.
      rewrite core_sendto by (auto; lia). rewrite filter_map_gen, map_map. cbn [sent_entry snd].
      rewrite (filter_ext_in _ (fun e => (fst e =? Z.of_nat q)%Z && t)) by (intros e J; apply (sent_hit p q n); auto; lia).
      destruct t; [f_equal; apply filter_ext; intros e; apply andb_true_r|].
      rewrite (filter_ext _ (fun _ => false)) by (intros e; apply andb_false_r). now rewrite filter_none.
    - destruct t; [reflexivity|]. induction (seq 0 (num_lines (blk p))); auto.
  Qed.
  Lemma core_recv p q r r' : p < N -> q < N -> r < c -> r' < c ->
    recv_lines core_block (q * c + r') (p * c + r) =
    if (r =? duty (rmark q) (gap p q)) && (r' =? duty (rmark q) (gap p q)) then recv_lines blk q p else [].
  Proof.
    intros Hp Hq Hr Hr'. set (t := (r =? _) && _). unfold recv_lines. rewrite core_lines by auto.
    transitivity (filter (fun n => existsb (fun e => (fst e =? Z.of_nat p)%Z) (recvfrom (lines (blk q) n)) && t) (seq 0 (num_lines (blk q)))).
    - apply filter_ext_in. intros n I. apply in_seq in I. rewrite core_recvfrom by (auto; lia).
      assert (G : forall l, (forall e, In e l -> In e (recvfrom (lines (blk q) n))) ->
                existsb (fun e => (fst e =? Z.of_nat (p * c + r))%Z) (map (recv_entry q r') l) = existsb (fun e => (fst e =? Z.of_nat p)%Z) l && t).
      { induction l as [|e l IH]; intros H; [reflexivity|]. cbn [map existsb]. rewrite IH by (intros; apply H; now right).
        change Z.of_nat with zz. assert (J : In e (recvfrom (lines (blk q) n))) by (apply H; now left).
        assert (Hn : n < num_lines (blk q)) by lia. rewrite (recv_hit p q n e r r') by auto. fold t.
        destruct (fst e =? zz p)%Z, t; cbn; auto using andb_true_r, andb_false_r. }
      apply G. auto.
    - destruct t; [apply filter_ext; intros n; apply andb_true_r|].
      rewrite (filter_ext _ (fun _ => false)) by (intros e; apply andb_false_r). now rewrite filter_none.
  Qed.

  (* ---------- both ends name the same core ---------- *)
  Lemma same_duty : rotating N num blk -> forall p q, p < N -> q < N -> p <> q -> sent_lines blk p q <> [] ->
    duty (smark p) (gap p q) = duty (rmark q) (gap p q).
  Proof.
    intros (w & g & S & Hw & Hg & HN & R) p q Hp Hq D Hs.
    destruct (proj1 (R p q Hp Hq D) Hs) as (El & Eh & Es).
    pose proof (wg_le N w g Hw Hg HN (num p) (num_lt p Hp)) as HW.
    pose proof (distance N w g Hw Hg HN) as Dis. cbv beta zeta in Dis.
    pose proof (digit_lt N w g Hw Hg HN) as Dig. cbv beta in Dig.
    pose proof (other_digit N w g Hw Hg HN) as Oth. cbv beta in Oth.
    pose proof gap_pos as GP. pose proof num_lt as NL.
    destruct (Dis (num p) (num q) (NL p Hp) (NL q Hq) El Eh) as [G1 G2].
    pose proof (Dig (num p)) as Dp. pose proof (Dig (num q)) as Dq.
    fold (gap p q) in G1, G2.
    remember ((num p / w mod g + g - num q / w mod g) mod g) as s eqn:Hs'.
    assert (Hsg : s < g) by (rewrite Hs'; clear - Hg; apply Nat.mod_upper_bound; lia). clear Hs'.
    assert (Tp : 0 < num p / w mod g + 1) by (rewrite Nat.add_1_r; apply Nat.lt_0_succ).
    assert (S0 : 0 < s).
    { destruct (Nat.eq_dec s 0) as [E|E]; [|clear - E; lia]. rewrite E, far_zero in G1 by exact Tp. pose proof (GP p q Hp Hq D) as X. clear - X G1; lia. }
    assert (T : forall t mark, 0 < t -> (forall d, 0 < d -> (mark d = true <-> exists s, 0 < s < g /\ S s = true /\ far N w g t s = d)) ->
              gap p q = far N w g t s -> turn mark (gap p q) = length (filter S (seq 1 (s - 1)))).
    { intros t mark Ht M G. rewrite G. apply (turn_count g (far N w g t)); auto; [now apply far_zero|now apply far_mono]. }
    assert (Tq : 0 < g - num q / w mod g) by (clear - Dq; lia).
    unfold duty. f_equal.
    rewrite (T (num p / w mod g + 1) (smark p) Tp), (T (g - num q / w mod g) (rmark q) Tq); auto.
    - intros d Hd. rewrite rmark_gap by auto. split.
      + intros (p' & Hp' & D' & S' & E). apply R in S'; auto. destruct S' as (E1 & E2 & S').
        destruct (Dis (num p') (num q) (NL p' Hp') (NL q Hq) E1 E2) as [_ G]. fold (gap p' q) in G.
        eexists. split; [|split; [exact S'|congruence]]. split; [|clear - Hg; apply Nat.mod_upper_bound; lia].
        apply Nat.neq_0_lt_0. intros Z0. rewrite Z0, far_zero in G by exact Tq. clear - G E Hd. lia.
      + intros (k & Hk & Sk & Ek).
        destruct (Oth (num q) k (NL q Hq) ltac:(clear - Hk; lia)) as [(P & HP & P1 & P2 & P3) _].
        destruct (perm_onto perm N Hperm P HP) as (p' & Hp' & Ep'). fold (num p') in Ep'. subst P. exists p'.
        destruct (Dis (num p') (num q) (NL p' Hp') (NL q Hq) P1 P2) as [_ G]. rewrite P3 in G. fold (gap p' q) in G.
        assert (D' : p' <> q).
        { intros ->. replace (num q / w mod g + g - num q / w mod g) with (0 + 1 * g) in P3 by (clear - Dq; lia).
          rewrite Nat.mod_add, Nat.mod_small in P3 by (clear - Hg; lia). clear - P3 Hk; lia. }
        split; [auto|]. split; [auto|]. split; [|congruence]. apply R; auto. rewrite P3. auto.
    - intros d Hd. rewrite smark_gap by auto. split.
      + intros (q' & Hq' & D' & S' & E). apply R in S'; auto. destruct S' as (E1 & E2 & S').
        destruct (Dis (num p) (num q') (NL p Hp) (NL q' Hq') E1 E2) as [G _]. fold (gap p q') in G.
        eexists. split; [|split; [exact S'|congruence]]. split; [|clear - Hg; apply Nat.mod_upper_bound; lia].
        apply Nat.neq_0_lt_0. intros Z0. rewrite Z0, far_zero in G by exact Tp. clear - G E Hd. lia.
      + intros (k & Hk & Sk & Ek).
        destruct (Oth (num p) k (NL p Hp) ltac:(clear - Hk; lia)) as [_ (P & HP & P1 & P2 & P3)].
        destruct (perm_onto perm N Hperm P HP) as (q' & Hq' & Ep'). fold (num q') in Ep'. subst P. exists q'.
        destruct (Dis (num p) (num q') (NL p Hp) (NL q' Hq') P1 P2) as [G _]. rewrite P3 in G. fold (gap p q') in G.
        assert (D' : q' <> p).
        { intros ->. replace (num p / w mod g + g - num p / w mod g) with (0 + 1 * g) in P3 by (clear - Dp; lia).
          rewrite Nat.mod_add, Nat.mod_small in P3 by (clear - Hg; lia). clear - P3 Hk; lia. }
        split; [auto|]. split; [auto|]. split; [|congruence]. apply R; auto. rewrite P3. auto.
  Qed.

  Theorem cores_agree : rotating N num blk -> shared_out N c blk core_block.
  Proof.
    intros R. split.
    - intros p q Hp Hq. exists (duty (smark p) (gap p q)). split; [apply duty_lt|]. intros r r' Hr Hr'.
      rewrite core_sent, core_recv by auto. split; [reflexivity|].
      destruct (Nat.eq_dec p q) as [->|D].
      { assert (E : recv_lines blk q q = []).
        { destruct (recv_lines blk q q) eqn:E; [reflexivity|]. assert (X : recv_lines blk q q <> []) by congruence.
          apply recvs_entry in X. destruct X as (n' & e & Hn & I & X). destruct (entry_ok q n' e Hq Hn (in_or_app _ _ _ (or_intror I))) as [Y|(q' & _ & D & Y)]; rewrite X in Y; unfold zz in Y; lia. }
        rewrite E. destruct (_ && _), (_ && _); reflexivity. }
      destruct (recv_lines blk q p) as [|a l] eqn:E; [destruct (_ && _), (_ && _); reflexivity|].
      rewrite (same_duty R p q Hp Hq D); [reflexivity|]. apply paired; auto. congruence.
    - intros p r Hp Hr. rewrite core_at by auto. split; [reflexivity|]. intros n. repeat split.
  Qed.
End Share.
