From Verif Require Import Base BytecodeModel RebindModel RebindSpec.
Local Open Scope Z_scope.
Local Ltac Zify.zify_post_hook ::= idtac.

Lemma seg_pos : 0 < 2 ^ 28. Proof. lia. Qed.
Lemma normalize_parts d a : 0 < d -> 0 <= a ->
  normalize_address d a / seg = segment a /\ normalize_address d a mod seg = offset a / d.
Proof.
  intros Hd Ha. unfold normalize_address, segment, offset, seg.
  assert (B := Z.mod_pos_bound a (2 ^ 28) seg_pos).
  assert (C : 0 <= a mod 2 ^ 28 / d < 2 ^ 28).
  { split; [apply Z.div_pos; lia|]. apply Z.div_lt_upper_bound; [lia|]. nia. }
  split.
  - rewrite Z.div_add by lia. rewrite Z.div_small by exact C. reflexivity.
  - rewrite Z.mod_add by lia. apply Z.mod_small. exact C.
Qed.
Lemma clip_room buf io off m : 0 <= m -> clip buf io (off + buf) m = Z.max 0 (Z.min m (io - off)).
Proof.
  intros H. unfold clip. destruct (Z.ltb_spec (buf + io) (off + buf + m)); [|lia].
  destruct (Z.ltb_spec (buf + io - (off + buf)) 0); lia.
Qed.
Lemma recalculate_ok k d a m : 0 < d -> 0 <= a -> known k a -> 0 <= m ->
  recalculate_address_io k (normalize_address d a) m = Some (place k d a, room k d a m).
Proof.
  intros Hd Ha K Hm. unfold recalculate_address_io. destruct (normalize_parts d a Hd Ha) as [-> ->].
  unfold place, room, buffer_of, scaled, SEND, RECV.
  destruct (Z.eqb_spec (segment a) 8) as [E|E]; cbn [orb].
  - rewrite clip_room by assumption. f_equal. f_equal. lia.
  - destruct (Z.eqb_spec (segment a) 9) as [E'|E'].
    + rewrite clip_room by assumption. f_equal. f_equal. lia.
    + destruct K as [[K|K]|K]; [contradiction|contradiction|]. unfold index.
      destruct (Z.leb_spec 0 (segment a)); [|lia]. rewrite (nth_error_nth' _ 0) by lia. f_equal. f_equal. lia.
Qed.
Lemma room_nonneg k d a m : 0 <= m -> 0 <= room k d a m.
Proof. intros H. unfold room. destruct (_ || _); lia. Qed.
Lemma room_le k d a m : 0 <= m -> room k d a m <= m.
Proof. intros H. unfold room. destruct (_ || _); lia. Qed.
Lemma room_mono k d a m m' : m <= m' -> room k d a m <= room k d a m'.
Proof. intros H. unfold room. destruct (_ || _); lia. Qed.
Lemma scaled_nonneg k d n : 0 < d -> 0 <= k_count k -> 0 <= n -> 0 <= scaled k d n.
Proof. intros. unfold scaled. apply Z.mul_nonneg_nonneg; [apply Z.div_pos; lia|assumption]. Qed.
Lemma size_pos op : 0 < size_of_op op.
Proof. unfold size_of_op. repeat (destruct (_ =? _); [lia|]). lia. Qed.
Lemma reduce_size k ts pf n : 0 < ts -> 0 < pf -> 0 <= n -> Z.quot n pf * k_count k = scaled k (ts * pf) (n * ts).
Proof.
  intros. unfold scaled. rewrite Z.quot_div_nonneg by lia. f_equal.
  rewrite (Z.mul_comm n ts). rewrite Z.div_mul_cancel_l by lia. reflexivity.
Qed.

Lemma instr_moved k ts pf at_ i : 0 < ts -> 0 < pf -> 0 <= k_count k -> whole_units k (ts * pf) ts i ->
  exists i', normalize_instr (ts * pf) i = Some i' /\ rebind k None at_ i' = Some (moved k (ts * pf) ts i, at_).
Proof.
  intros T P C H. assert (D : 0 < ts * pf) by lia. remember (ts * pf) as d eqn:Ed.
  destruct i; cbn [whole_units normalize_instr moved] in *; try contradiction; try (eexists; split; reflexivity).
  - destruct H as [(A1 & A2 & A3 & A4 & A5) (B1 & B2 & B3 & B4 & B5)]. eexists; split; [reflexivity|]. cbn [rebind].
    rewrite Z.quot_div_nonneg by lia. change (size / d * k_count k) with (scaled k d size).
    assert (S := scaled_nonneg k d size D C A4).
    rewrite (recalculate_ok k d dest (scaled k d size) D A1 A2 S).
    rewrite (recalculate_ok k d src _ D B1 B2 (room_nonneg k d dest _ S)). reflexivity.
  - destruct H as (A1 & A2 & A3 & A4 & A5). eexists; split; [reflexivity|]. cbn [rebind].
    rewrite Z.quot_div_nonneg by lia. change (size / d * k_count k) with (scaled k d size).
    assert (S := scaled_nonneg k d size D C A4). rewrite (recalculate_ok k d buf _ D A1 A2 S). reflexivity.
  - destruct H as (A1 & A2 & A3 & A4 & A5). eexists; split; [reflexivity|]. cbn [rebind].
    rewrite Z.quot_div_nonneg by lia. change (size / d * k_count k) with (scaled k d size).
    assert (S := scaled_nonneg k d size D C A4). rewrite (recalculate_ok k d buf _ D A1 A2 S). reflexivity.
  - destruct H as (O & (A1 & A2 & A3 & A4 & A5) & (B1 & B2 & B3 & B4 & B5)). rewrite O.
    replace (Z.quot d ts) with pf by (subst d; rewrite Z.quot_div_nonneg by lia; rewrite Z.mul_comm, Z.div_mul by lia; reflexivity).
    destruct (Z.eqb_spec pf 0); [lia|]. eexists; split; [reflexivity|]. cbn [rebind].
    rewrite (reduce_size k ts pf count T P) by nia. rewrite <- Ed.
    assert (S := scaled_nonneg k d (count * ts) D C A4).
    rewrite (recalculate_ok k d dest _ D A1 A2 S).
    rewrite (recalculate_ok k d src _ D B1 B2 (room_nonneg k d dest _ S)).
    rewrite Z.quot_div_nonneg; [reflexivity| |apply size_pos]. apply room_nonneg. apply room_nonneg. assumption.
Qed.
Lemma program_moved k ts pf p : 0 < ts -> 0 < pf -> 0 <= k_count k -> Forall (whole_units k (ts * pf) ts) p ->
  exists p', normalize_blocking (ts * pf) p = Some p' /\ exec_blocking k None 0 p' = Some (map (moved k (ts * pf) ts) p).
Proof.
  intros T P C H. induction H as [|i p Hi Hp IH]; [exists []; split; reflexivity|].
  destruct IH as (p' & E1 & E2). destruct (instr_moved k ts pf 0 i T P C Hi) as (i' & F1 & F2).
  exists (i' :: p'). cbn [normalize_blocking exec_blocking map]. rewrite E1, F1, F2, E2. split; reflexivity.
Qed.

Lemma room_bound k d a m : 0 < d -> 0 <= k_count k -> user a -> 0 <= m ->
  room k d a m = 0 \/ buffer_of k a <= place k d a /\ place k d a + room k d a m <= buffer_of k a + k_io k.
Proof.
  intros D C U M. unfold room, place.
  replace ((segment a =? 8) || (segment a =? 9)) with true by (destruct U as [-> | ->]; reflexivity).
  assert (S : 0 <= scaled k d (offset a)).
  { apply scaled_nonneg; try assumption. unfold offset. apply Z.mod_pos_bound. lia. }
  lia.
Qed.
Lemma coverage k d a n x : 0 < d -> 0 < k_count k -> operand_ok k d a n -> user a -> 0 <= x ->
  (scaled k d (offset a) <= x < scaled k d (offset a) + room k d a (scaled k d n) <->
   x < k_io k /\ offset a <= x / k_count k * d < offset a + n).
Proof.
  intros D C (A & _ & (u & Eu) & N & (v & Ev)) U X. unfold room.
  replace ((segment a =? 8) || (segment a =? 9)) with true by (destruct U as [-> | ->]; reflexivity).
  unfold scaled. rewrite Eu, Ev, !Z.div_mul by lia. set (c := k_count k) in *.
  assert (V : 0 <= v) by nia.
  assert (Q := Z.div_mod x c ltac:(lia)). assert (R := Z.mod_pos_bound x c C). set (q := x / c) in *. set (r := x mod c) in *.
  assert (L : u * c <= x <-> u <= q).
  { split; intros; nia. }
  assert (M : x < u * c + v * c <-> q < u + v).
  { split; intros; nia. }
  assert (L' : u * d <= q * d <-> u <= q) by (symmetry; apply Z.mul_le_mono_pos_r; assumption).
  assert (M' : q * d < u * d + v * d <-> q < u + v).
  { rewrite <- Z.mul_add_distr_r. symmetry. apply Z.mul_lt_mono_pos_r. assumption. }
  assert (W : 0 <= v * c) by nia. lia.
Qed.
Lemma room_whole k d a n ts : (ts | k_count k) -> (ts | k_io k) -> (ts | n) -> (ts | room k d a n).
Proof.
  intros C I N. assert (S : (ts | scaled k d (offset a))) by (unfold scaled; apply Z.divide_mul_r; assumption).
  unfold room. destruct (_ || _); [|assumption].
  destruct (Z.max_spec 0 (Z.min n (k_io k - scaled k d (offset a)))) as [[_ ->]|[_ ->]]; [|exists 0; reflexivity].
  destruct (Z.min_spec n (k_io k - scaled k d (offset a))) as [[_ ->]|[_ ->]]; [assumption|]. apply Z.divide_sub_r; assumption.
Qed.

Lemma factor_covers j pf ts count : 0 < pf -> (pf | j) -> 0 < j -> 0 < ts -> 1 <= count ->
  let c := allreduce_factor j pf count ts in
  0 < c /\ (ts | c) /\ forall x, 0 <= x < count * ts -> 0 <= x / c * (ts * pf) < j * ts.
Proof.
  intros P (q & Eq) J T N. unfold allreduce_factor. subst j. rewrite Z.div_mul by lia.
  assert (Q : 0 < q) by nia.
  set (u := Z.quot (count - 1) q + 1).
  assert (UB : 1 <= u /\ count <= q * u).
  { unfold u. rewrite Z.quot_div_nonneg by lia. assert (0 <= (count - 1) / q) by (apply Z.div_pos; lia).
    assert (X := Z.div_mod (count - 1) q ltac:(lia)). assert (Y := Z.mod_pos_bound (count - 1) q Q). split; nia. }
  destruct UB as [U B].
  cbv zeta. split; [nia|]. split; [exists u; reflexivity|].
  intros x Hx. assert (0 <= x / (u * ts)) by (apply Z.div_pos; nia).
  assert (x / (u * ts) < q) by (apply Z.div_lt_upper_bound; nia).
  split; [nia|]. replace (q * pf * ts) with (q * (ts * pf)) by ring. apply Z.mul_lt_mono_pos_r; nia.
Qed.

Lemma select_ok : forall sizes ccount i, sizes <> [] ->
  let r := select_class sizes ccount i in
  (i <= r < i + length sizes)%nat /\
  (forall k, (i <= k < r)%nat -> nth (k - i) sizes 0 < ccount) /\
  ((S r < i + length sizes)%nat -> ccount <= nth (r - i) sizes 0).
Proof.
  induction sizes as [|s sizes IH]; intros ccount i N; [contradiction|].
  destruct sizes as [|s' sizes].
  - cbn. split; [lia|]. split; lia.
  - cbn [select_class]. destruct (Z.ltb_spec s ccount) as [L|L].
    + specialize (IH ccount (S i) ltac:(discriminate)). cbv zeta in *.
      change (match sizes with [] => S i | _ :: _ => if s' <? ccount then select_class sizes ccount (S (S i)) else S i end)
        with (select_class (s' :: sizes) ccount (S i)) in *.
      set (r := select_class (s' :: sizes) ccount (S i)) in *. destruct IH as (A & B & C). cbn [length] in *.
      split; [lia|]. split.
      * intros k Hk. destruct (Nat.eq_dec k i) as [->|Hne]; [rewrite Nat.sub_diag; exact L|].
        replace (k - i)%nat with (S (k - S i)) by lia. cbn [nth]. apply B. lia.
      * intros Hr. replace (r - i)%nat with (S (r - S i)) by lia. cbn [nth]. apply C. lia.
    + cbn [length]. split; [lia|]. split; [lia|]. intros _. rewrite Nat.sub_diag. exact L.
Qed.
Lemma null_pointer k f at_ p : f at_ = 0 -> exec_blocking k (Some f) at_ p = exec_blocking k None at_ p.
Proof.
  intros E. induction p as [|i p IH]; [reflexivity|]. cbn [exec_blocking].
  assert (X : rebind k (Some f) at_ i = rebind k None at_ i /\ forall i' a', rebind k None at_ i = Some (i', a') -> a' = at_).
  { destruct i; cbn [rebind]; rewrite ?E; cbn [Z.eqb]; (split; [reflexivity|]);
      intros i' a'; repeat (destruct (recalculate_address_io _ _ _) as [[? ?]|]; [|discriminate]); congruence. }
  destruct X as [-> X]. destruct (rebind k None at_ i) as [[i' a']|] eqn:R; [|reflexivity]. rewrite (X _ _ eq_refl), IH. reflexivity.
Qed.
Lemma sent_fits k k' ts pf f at_ a b n r q : 0 < ts -> 0 < pf -> 0 <= k_count k ->
  operand_ok k (ts * pf) a n -> operand_ok k (ts * pf) b n -> k_count k' = k_count k -> k_io k' = k_io k ->
  f at_ = normalize_address (ts * pf) b -> f at_ <> 0 ->
  exists m, rebind k (Some f) at_ (Isend (normalize_address (ts * pf) a) (Z.quot n (ts * pf)) r q) = Some (Isend (place k (ts * pf) a) m r q, S at_) /\
    m <= room k' (ts * pf) b (scaled k' (ts * pf) n).
Proof.
  intros T P C (A1 & A2 & A3 & A4 & A5) (B1 & B2 & B3 & B4 & B5) E1 E2 F NZ. set (d := ts * pf) in *. assert (D : 0 < d) by (unfold d; lia).
  cbn [rebind]. rewrite Z.quot_div_nonneg by lia. change (n / d * k_count k) with (scaled k d n).
  assert (S := scaled_nonneg k d n D C A4). rewrite (recalculate_ok k d a _ D A1 A2 S).
  destruct (Z.eqb_spec (f at_) 0) as [Z0|_]; [contradiction|]. rewrite F.
  rewrite (recalculate_ok k d b _ D B1 B2 (room_nonneg k d a _ S)). eexists; split; [reflexivity|].
  assert (X : forall m, room k' d b m = room k d b m) by (intros; unfold room, scaled; rewrite E1, E2; reflexivity).
  rewrite X. unfold scaled at 2. rewrite E1. apply room_mono. apply room_le. assumption.
Qed.
