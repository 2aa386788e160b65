(* The instructions of the copy-in reduction as items: barriers and copy-in. *)
From Verif Require Import Base BarrierModel NodeModel SyncProofs SyncItems TreeProofs TreeKnow.
From Coq Require Import Permutation.
Local Open Scope nat_scope.
Local Ltac Zify.zify_post_hook ::= idtac.

Lemma quot_nat a b : 0 < b -> Z.quot (Z.of_nat a) (Z.of_nat b) = Z.of_nat (a / b).
Proof. intros. rewrite Z.quot_div_nonneg by lia. now rewrite Nat2Z.inj_div. Qed.
Lemma rem_nat a b : 0 < b -> Z.rem (Z.of_nat a) (Z.of_nat b) = Z.of_nat (a mod b).
Proof. intros. rewrite Z.rem_mod_nonneg by lia. now rewrite Nat2Z.inj_mod. Qed.

(* ---- the barriers ---- *)
Lemma pow2_nat e : Z.of_nat (2 ^ e) = (2 ^ Z.of_nat e)%Z.
Proof. now rewrite Nat2Z.inj_pow. Qed.

Lemma clg_lt n e : e < clg n <-> 2 ^ e < n.
Proof.
  unfold clg. destruct n as [|n].
  - change (Nat.log2_up 0) with 0. split; [lia|]. intros. pose proof (Nat.pow_nonzero 2 e ltac:(lia)). lia.
  - pose proof (Nat.log2_up_le_pow2 (S n) e ltac:(lia)). lia.
Qed.

Lemma clg_le n : clg n <= n.
Proof. unfold clg. apply Nat.log2_up_le_lin. lia. Qed.

Lemma clg_mono a b : a <= b -> clg a <= clg b.
Proof. apply Nat.log2_up_le_mono. Qed.

Lemma doubling_eq n : forall fuel e, clg n <= e + fuel ->
  doubling fuel (Z.of_nat (2 ^ e)) (Z.of_nat n) = map (fun i => Z.of_nat (2 ^ i)) (seq e (clg n - e)).
Proof.
  induction fuel as [|fuel IH]; intros e He.
  - replace (clg n - e) with 0 by lia. reflexivity.
  - cbn [doubling]. destruct (Z.ltb_spec (Z.of_nat (2 ^ e)) (Z.of_nat n)) as [L|L].
    + assert (e < clg n) by (apply clg_lt; lia).
      replace (clg n - e) with (S (clg n - S e)) by lia. cbn [seq map]. f_equal.
      rewrite <- IH by lia. f_equal. rewrite Nat.pow_succ_r'. lia.
    + assert (~ e < clg n) by (rewrite clg_lt; lia).
      replace (clg n - e) with 0 by lia. reflexivity.
Qed.

Lemma facs_eq n : facs (Z.of_nat n) = map (fun i => Z.of_nat (2 ^ i)) (seq 0 (clg n)).
Proof.
  unfold facs. change 1%Z with (Z.of_nat (2 ^ 0)). rewrite doubling_eq.
  - now rewrite Nat.sub_0_r.
  - rewrite Nat2Z.id. apply clg_le.
Qed.

Definition bar (c : nat) (l : list nat) : list instr :=
  flat_map (fun w => [Set_ (Z.of_nat c); Wait (Z.of_nat w)]) l.

Lemma micro_bar c l : micro_code (bar c l) = pairs c l.
Proof. unfold micro_code, bar, pairs. induction l as [|w l IH]; simpl; auto. now rewrite IH. Qed.

Lemma micro_app a b : micro_code (a ++ b) = micro_code a ++ micro_code b.
Proof. unfold micro_code. apply flat_map_app. Qed.

Lemma bar_app c a b : bar c (a ++ b) = bar c a ++ bar c b.
Proof. unfold bar. apply flat_map_app. Qed.

Lemma flat_map_map {A B D} (f : A -> B) (g : B -> list D) l :
  flat_map g (map f l) = flat_map (fun a => g (f a)) l.
Proof. induction l as [|a l IH]; simpl; auto. now rewrite IH. Qed.

Lemma flat_map_eq_in {A B} (f g : A -> list B) l : (forall a, In a l -> f a = g a) -> flat_map f l = flat_map g l.
Proof. induction l as [|a l IH]; simpl; intros Q; auto. rewrite Q by auto. f_equal. apply IH. auto. Qed.

Lemma flat_map_const {A B} (x : list B) (l : list A) : flat_map (fun _ => x) l = concat (repeat x (length l)).
Proof. induction l as [|a l IH]; simpl; auto. now rewrite IH. Qed.

Lemma bar_repeat c k : bar c (repeat c k) = concat (repeat [Set_ (Z.of_nat c); Wait (Z.of_nat c)] k).
Proof. induction k as [|k IH]; simpl; auto. now rewrite <- IH. Qed.

Definition rounds (k : nat) (w : nat -> nat) : list nat := map w (seq 0 k).

Lemma round_eq c ranks num nb (w : nat -> nat) :
  at_ ranks 0 = Z.of_nat c -> num = Z.of_nat nb ->
  (forall e, e < clg nb -> at_ ranks (Z.of_nat (2 ^ e mod nb)) = Z.of_nat (w e)) ->
  flat_map (fun fac => [Set_ (at_ ranks 0); Wait (at_ ranks (Z.rem fac num))]) (facs num) = bar c (rounds (clg nb) w).
Proof.
  intros H0 -> Hw. rewrite facs_eq, flat_map_map. unfold bar, rounds. rewrite flat_map_map.
  apply flat_map_eq_in. intros e Ie. apply in_seq in Ie. rewrite H0.
  assert (2 ^ e < nb) by (apply clg_lt; lia).
  rewrite rem_nat by lia. rewrite Hw by lia. reflexivity.
Qed.

Lemma lb_all c f nb ranks (w : nat -> nat) :
  at_ ranks 0 = Z.of_nat c ->
  (forall e, e < clg nb -> at_ ranks (Z.of_nat (2 ^ e mod nb)) = Z.of_nat (w e)) ->
  local_barrier (Z.of_nat f) (Z.of_nat nb) ranks = bar c (rounds (clg nb) w ++ repeat c (clg f - clg nb)).
Proof.
  intros H0 Hw. unfold local_barrier. rewrite (proj2 (Z.leb_le 0 (Z.of_nat f))) by lia.
  rewrite (round_eq c ranks _ nb w H0 eq_refl Hw).
  rewrite bar_app, bar_repeat, flat_map_const, H0. f_equal. f_equal. f_equal.
  rewrite skipn_length, !facs_eq, !map_length, !seq_length. reflexivity.
Qed.

Lemma lb_fin c x nb ranks (w : nat -> nat) : 0 < x -> 0 < nb ->
  at_ ranks 0 = Z.of_nat c ->
  (forall e, e < clg nb -> at_ ranks (Z.of_nat (2 ^ e mod nb)) = Z.of_nat (w e)) ->
  local_barrier (- Z.of_nat x) (Z.of_nat nb) ranks = bar c (rounds (clg nb) w).
Proof.
  intros Hx Hn H0 Hw. unfold local_barrier. rewrite (proj2 (Z.leb_gt 0 (- Z.of_nat x))) by lia.
  rewrite (proj2 (Z.ltb_lt 0 (Z.of_nat nb))) by lia. now apply round_eq.
Qed.

Lemma lb_idle c x nb : 0 < x ->
  local_barrier (- Z.of_nat x) (- Z.of_nat nb) [Z.of_nat c] = bar c (repeat c (clg nb)).
Proof.
  intros Hx. unfold local_barrier. rewrite (proj2 (Z.leb_gt 0 (- Z.of_nat x))) by lia.
  rewrite (proj2 (Z.ltb_ge 0 (- Z.of_nat nb))) by lia. rewrite Z.opp_involutive.
  rewrite bar_repeat, flat_map_const. now rewrite facs_eq, map_length, seq_length.
Qed.

Definition diss (n c : nat) : list nat := rounds (clg n) (fun e => (c + 2 ^ e) mod n).

Lemma sb_eq n c : c < n -> socket_barrier (Z.of_nat n) (Z.of_nat c) = bar c (diss n c).
Proof.
  intros Hc. unfold socket_barrier, diss, bar, rounds. rewrite facs_eq, !flat_map_map.
  apply flat_map_eq_in. intros e _. rewrite <- Nat2Z.inj_add, rem_nat by lia. reflexivity.
Qed.

(* ---- moves ---- *)
Definition move_acts (x : instr) : list act :=
  match x with
  | Move k d s n => map (fun i => (k, (d + Z.of_nat i)%Z, shift s (Z.of_nat i))) (seq 0 (Z.to_nat n))
  | _ => []
  end.
Definition macts (l : list instr) : list act := flat_map move_acts l.
Definition is_move (x : instr) : Prop := match x with Move _ _ _ _ => True | _ => False end.

Lemma micro_moves l : Forall is_move l -> micro_code l = map mact (macts l).
Proof.
  unfold micro_code, macts. induction 1 as [|x l Hx Hl IH]; [reflexivity|].
  cbn [flat_map]. rewrite map_app, IH. f_equal. destruct x; try destruct Hx.
  cbn [micro_of move_acts]. rewrite map_map. reflexivity.
Qed.

Definition zrange (lo hi : Z) : list Z := map (fun i => (lo + Z.of_nat i)%Z) (seq 0 (Z.to_nat (hi - lo))).

Lemma in_zrange lo hi x : In x (zrange lo hi) <-> (lo <= x < hi)%Z.
Proof.
  unfold zrange. rewrite in_map_iff. split.
  - intros (i & <- & I). apply in_seq in I. lia.
  - intros Hx. exists (Z.to_nat (x - lo)). split; [lia|]. apply in_seq. lia.
Qed.

Lemma NoDup_zrange lo hi : NoDup (zrange lo hi).
Proof. unfold zrange. apply FinFun.Injective_map_NoDup; [|apply seq_NoDup]. intros i j E. lia. Qed.

Lemma zrange_app a b c : (a <= b <= c)%Z -> zrange a c = zrange a b ++ zrange b c.
Proof.
  intros Hx. unfold zrange. replace (Z.to_nat (c - a)) with (Z.to_nat (b - a) + Z.to_nat (c - b)) by lia.
  rewrite seq_app, map_app. f_equal. simpl (0 + _).
  rewrite <- (Nat.add_0_r (Z.to_nat (b - a))) at 1.
  generalize (Z.to_nat (c - b)). intros k. generalize 0. induction k as [|k IH]; intros j; [reflexivity|].
  cbn [seq map]. f_equal; [lia|]. rewrite <- IH. f_equal. f_equal. lia.
Qed.

Lemma zrange_empty a b : (b <= a)%Z -> zrange a b = [].
Proof. intros. unfold zrange. replace (Z.to_nat (b - a)) with 0 by lia. reflexivity. Qed.

(* ---- the lines of block 0 ---- *)
Section Lines.
  Context (counts : list Z).
  Hypothesis counts_nn : Forall (fun z => (0 <= z)%Z) counts.
  Local Open Scope Z_scope.

  Definition lsum (fracs : list nat) : Z := fold_right (fun f a => nth f counts 0 + a) 0 fracs.

  (* where the byte of the shared vector at x comes from *)
  Fixpoint source (fracs : list nat) (add x : Z) : Z :=
    match fracs with
    | [] => 0
    | f :: r => if x <? add + nth f counts 0 then moffset counts f + (x - add)
                else source r (add + nth f counts 0) x
    end.

  Lemma nth_nn f : 0 <= nth f counts 0.
  Proof.
    destruct (lt_dec f (length counts)) as [L|L].
    - rewrite Forall_forall in counts_nn. apply counts_nn. now apply nth_In.
    - rewrite nth_overflow by lia. lia.
  Qed.

  Lemma moffset_S f : (f < length counts)%nat -> moffset counts (S f) = moffset counts f + nth f counts 0.
  Proof.
    unfold moffset. revert f. clear counts_nn. induction counts as [|c l IH]; intros f Hf; [simpl in Hf; lia|].
    destruct f as [|f]; cbn [firstn nth fold_right].
    - simpl. lia.
    - simpl in Hf. rewrite <- Z.add_assoc, <- IH by lia. reflexivity.
  Qed.

  Lemma moffset_mono a b : (a <= b <= length counts)%nat -> moffset counts a <= moffset counts b.
  Proof.
    intros (L & Lb). revert Lb. induction L as [|b L IH]; intros Lb; [lia|].
    rewrite moffset_S by lia. pose proof (nth_nn b). specialize (IH ltac:(lia)). lia.
  Qed.

  Lemma moffset_in f : (f < length counts)%nat ->
    0 <= moffset counts f /\ moffset counts f + nth f counts 0 <= total counts.
  Proof.
    intros Hf. split.
    - change 0 with (moffset counts 0). apply moffset_mono. lia.
    - rewrite <- moffset_S by auto. apply moffset_mono. lia.
  Qed.

  Lemma lsum_nn fracs : 0 <= lsum fracs.
  Proof. induction fracs as [|f r IH]; simpl; [lia|]. pose proof (nth_nn f). lia. Qed.

  Lemma line_moves_acts k off al sl : 0 <= al -> 0 <= sl -> al + sl <= total counts ->
    forall fracs add, (forall f, In f fracs -> (f < length counts)%nat) -> 0 <= add ->
    Forall is_move (line_moves k counts off al sl fracs add) /\
    macts (line_moves k counts off al sl fracs add) =
    map (fun x => (k, off + x, Snd (source fracs add x)))
        (zrange (Z.max al add) (Z.min (al + sl) (add + lsum fracs))).
  Proof.
    intros Hal Hsl Hle. induction fracs as [|f r IH]; intros add Hf Hadd.
    - split; [constructor|]. cbn [line_moves lsum fold_right]. rewrite zrange_empty by lia. reflexivity.
    - destruct (IH (add + nth f counts 0)) as (IH1 & IH2).
      { intros; apply Hf; simpl; auto. }
      { pose proof (nth_nn f). lia. }
      pose proof (nth_nn f) as Nf. pose proof (lsum_nn r) as Nr.
      destruct (moffset_in f ltac:(apply Hf; simpl; auto)) as (M1 & M2).
      cbn [line_moves]. cbn [lsum fold_right]. fold (lsum r).
      set (sz := nth f counts 0) in *. set (tot := total counts) in *.
      assert (Src : forall x, add + sz <= x -> source (f :: r) add x = source r (add + sz) x).
      { intros x Hx. cbn [source]. fold sz. now rewrite (proj2 (Z.ltb_ge _ _)) by lia. }
      assert (Src0 : forall x, x < add + sz -> source (f :: r) add x = moffset counts f + (x - add)).
      { intros x Hx. cbn [source]. fold sz. now rewrite (proj2 (Z.ltb_lt _ _)) by lia. }
      assert (Rest : map (fun x => (k, off + x, Snd (source r (add + sz) x)))
                       (zrange (Z.max al (add + sz)) (Z.min (al + sl) (add + sz + lsum r))) =
                     map (fun x => (k, off + x, Snd (source (f :: r) add x)))
                       (zrange (Z.max al (add + sz)) (Z.min (al + sl) (add + sz + lsum r)))).
      { apply map_ext_in. intros x Ix. apply in_zrange in Ix. rewrite Src by lia. reflexivity. }
      unfold macts. rewrite flat_map_app. fold (macts (line_moves k counts off al sl r (add + sz))).
      rewrite IH2, Rest.
      destruct (Z.leb_spec (al + sl) add) as [A|A]; cbn [orb].
      { split; [exact IH1|]. cbn [flat_map app]. rewrite !zrange_empty by lia. reflexivity. }
      destruct (Z.leb_spec (add + sz) al) as [B|B].
      { split; [exact IH1|]. cbn [flat_map app].
        replace (Z.max al (add + sz)) with (Z.max al add) by lia.
        replace (add + (sz + lsum r)) with (add + sz + lsum r) by lia. reflexivity. }
      set (aa := if al <? add then add else al).
      set (s1 := if al <? add then sl - (add - al) else sl).
      set (s2 := if add + sz <? aa + s1 then add + sz - aa else s1).
      assert (Eaa : aa = Z.max al add) by (unfold aa; destruct (Z.ltb_spec al add); lia).
      assert (Es2 : aa + s2 = Z.min (al + sl) (add + sz)).
      { unfold s2, s1, aa. destruct (Z.ltb_spec al add); [destruct (Z.ltb_spec (add + sz) (add + (sl - (add - al))))|
          destruct (Z.ltb_spec (add + sz) (al + sl))]; lia. }
      clearbody aa s2. clear s1.
      assert (Sp : zrange (Z.max al add) (Z.min (al + sl) (add + (sz + lsum r))) =
                   zrange (Z.max al add) (aa + s2) ++
                   zrange (Z.max al (add + sz)) (Z.min (al + sl) (add + sz + lsum r))).
      { destruct (Z_le_gt_dec (add + sz) (al + sl)) as [Le|Gt].
        - rewrite (zrange_app _ (add + sz)) by lia. f_equal; [f_equal; lia|f_equal; lia].
        - rewrite (zrange_empty (Z.max al (add + sz))) by lia. rewrite app_nil_r. f_equal. lia. }
      rewrite Sp, map_app. clear Sp.
      destruct (Z.eqb_spec s2 0) as [Z0|Z0].
      { split; [exact IH1|]. cbn [flat_map app]. rewrite (zrange_empty _ (aa + s2)) by lia. reflexivity. }
      split.
      { apply Forall_app. split; [|exact IH1]. repeat constructor. }
      f_equal. cbn [flat_map]. rewrite app_nil_r. cbn [move_acts]. rewrite <- Eaa.
      unfold zrange. rewrite map_map. replace (aa + s2 - aa) with s2 by lia.
      apply map_ext_in. intros i Ii. apply in_seq in Ii. cbn [shift].
      replace (tot + aa - add + moffset counts f) with (moffset counts f + (aa - add) + 1 * tot) by lia.
      replace (tot + aa) with (aa + 1 * tot) by lia.
      rewrite Src0 by lia.
      rewrite !Z.rem_mod_nonneg by lia.
      rewrite !Z.mod_add by lia. rewrite !Z.mod_small by lia.
      f_equal; [f_equal; lia|f_equal; lia].
  Qed.
End Lines.

(* ---- the pieces of the copy-in ---- *)
Section Pieces.
  Context (size ts : Z) (n : nat).
  Hypothesis ts_pos : (0 < ts)%Z.
  Hypothesis size_nn : (0 <= size)%Z.
  Hypothesis size_ts : exists q, (size = q * ts)%Z.
  Hypothesis n_pos : 0 < n.

  Definition pst (p : nat) : Z := fst (piece size ts (Z.of_nat n) (Z.of_nat p)).
  Definition psz (p : nat) : Z := snd (piece size ts (Z.of_nat n) (Z.of_nat p)).

  Lemma piece_facts : pst 0 = 0%Z /\ (forall p, p < n -> (0 <= psz p)%Z) /\
    (forall p, p < n -> pst (S p) = (pst p + psz p)%Z) /\ pst n = size.
  Proof.
    destruct size_ts as (q & E). assert (Hq : (0 <= q)%Z) by nia.
    assert (Eq : Z.quot size ts = q) by (rewrite E; apply Z.quot_mul; lia).
    unfold pst, psz, piece. rewrite Eq. rewrite Z.quot_div_nonneg, Z.rem_mod_nonneg by lia.
    pose proof (Z.div_mod q (Z.of_nat n) ltac:(lia)) as DM. pose proof (Z.mod_pos_bound q (Z.of_nat n) ltac:(lia)) as MB.
    pose proof (Z.div_pos q (Z.of_nat n) Hq ltac:(lia)) as DP. revert DM MB DP.
    generalize (q / Z.of_nat n)%Z (q mod Z.of_nat n)%Z. intros a b DM MB DP.
    repeat split.
    - change (Z.of_nat 0) with 0%Z. destruct (Z.leb_spec b 0); cbn [fst].
      + assert (b = 0)%Z by lia. subst b. ring.
      + ring.
    - intros p Hp. destruct (Z.leb_spec b (Z.of_nat p)); cbn [snd]; nia.
    - intros p Hp. destruct (Z.leb_spec b (Z.of_nat p)), (Z.leb_spec b (Z.of_nat (S p))); cbn [fst snd];
        replace (Z.of_nat (S p)) with (Z.of_nat p + 1)%Z in * by lia; try ring; [lia|].
      assert (b = Z.of_nat p + 1)%Z by lia. subst b. ring.
    - rewrite (proj2 (Z.leb_le b (Z.of_nat n))) by lia. cbn [fst]. rewrite E, DM at 1. ring.
  Qed.

  Lemma pst_mono p q : p <= q -> q <= n -> (pst p <= pst q)%Z.
  Proof.
    destruct piece_facts as (_ & F1 & F2 & _). intros L. induction L as [|q L IH]; intros Hq; [lia|].
    rewrite F2 by lia. pose proof (F1 q ltac:(lia)). specialize (IH ltac:(lia)). lia.
  Qed.

  Lemma piece_in p : p < n -> (0 <= pst p /\ 0 <= psz p /\ pst p + psz p <= size)%Z.
  Proof.
    intros Hp. destruct piece_facts as (F0 & F1 & F2 & F3).
    pose proof (pst_mono 0 p ltac:(lia) ltac:(lia)). pose proof (pst_mono (S p) n ltac:(lia) ltac:(lia)).
    rewrite F2 in H0 by lia. pose proof (F1 p Hp). lia.
  Qed.

  Lemma piece_cover x : (0 <= x < size)%Z -> exists p, p < n /\ (pst p <= x < pst p + psz p)%Z.
  Proof.
    destruct piece_facts as (F0 & F1 & F2 & F3). intros Hx.
    assert (Q : forall k, k <= n -> (x < pst k)%Z -> exists p, p < k /\ (pst p <= x < pst p + psz p)%Z).
    { induction k as [|k IH]; intros Hk L; [lia|]. rewrite F2 in L by lia.
      destruct (Z_lt_ge_dec x (pst k)) as [L'|L'].
      - destruct (IH ltac:(lia) L') as (p & Hp & R). exists p. split; [lia|auto].
      - exists k. split; [lia|]. lia. }
    apply Q; [lia|]. rewrite F3. lia.
  Qed.

  Lemma piece_unique x p q : p < n -> q < n -> (pst p <= x < pst p + psz p)%Z -> (pst q <= x < pst q + psz q)%Z -> p = q.
  Proof.
    destruct piece_facts as (F0 & F1 & F2 & F3). intros Hp Hq R1 R2.
    destruct (lt_eq_lt_dec p q) as [[L|L]|L]; auto; exfalso.
    - pose proof (pst_mono (S p) q ltac:(lia) ltac:(lia)). rewrite F2 in H by lia. lia.
    - pose proof (pst_mono (S q) p ltac:(lia) ltac:(lia)). rewrite F2 in H by lia. lia.
  Qed.
End Pieces.
