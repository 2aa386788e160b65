(* The copy-in of the groups of factors[0] cores: code, synchronisation, values. *)
From Verif Require Import Base BarrierModel NodeModel SyncProofs SyncItems TreeProofs TreeKnow NodeCode.
From Coq Require Import Permutation.
Local Open Scope nat_scope.
Local Ltac Zify.zify_post_hook ::= idtac.

(* the address of byte x of an instance of the vector *)
Definition iaddr (fast : bool) (sz : Z) (inst : nat) (x : Z) : Z :=
  (if fast then Z.of_nat inst * 64 + 8 + x else Z.of_nat inst * sz + x)%Z.

Lemma iaddr_inj fast sz : (fast = true -> sz <= 56)%Z -> forall i x i' x', (0 <= x < sz)%Z -> (0 <= x' < sz)%Z ->
  iaddr fast sz i x = iaddr fast sz i' x' -> i = i' /\ x = x'.
Proof.
  intros Hf i x i' x' Hx Hx' E. unfold iaddr in E. destruct fast.
  - specialize (Hf eq_refl). lia.
  - assert (i = i').
    { destruct (lt_eq_lt_dec i i') as [[L|L]|L]; auto; exfalso; nia. }
    subst. lia.
Qed.

Definition grp (g c : nat) : list nat := map (fun t => c / g * g + (t + c mod g) mod g) (seq 0 g).
Definition pred_ (g c : nat) : nat := c / g * g + (c mod g + (g - 1)) mod g.
Definition gdiss (g c : nat) : list nat := rounds (clg g) (fun e => c / g * g + (c mod g + 2 ^ e) mod g).
Definition pidx (g c i : nat) : nat := (2 * g - 1 + c mod g - i) mod g.

Lemma group_ranks_eq n g c : 0 < g -> n mod g = 0 -> 0 < n ->
  group_ranks (Z.of_nat n) (Z.of_nat g) (Z.of_nat c) = map Z.of_nat (grp g c).
Proof.
  intros Hg Hn Hp. unfold group_ranks. rewrite (rem_nat n g), Hn by lia. change (Z.of_nat 0 =? 0)%Z with true. cbn [orb].
  rewrite Nat2Z.id. unfold grp. rewrite map_map. apply map_ext. intros t.
  rewrite rem_nat, quot_nat by lia. rewrite <- Nat2Z.inj_add, <- Nat2Z.inj_mod. lia.
Qed.

Lemma at_map l i : at_ (map Z.of_nat l) (Z.of_nat i) = Z.of_nat (nth i l 0).
Proof. unfold at_. rewrite Nat2Z.id. change 0%Z with (Z.of_nat 0). apply map_nth. Qed.

Lemma nth_grp g c t : t < g -> nth t (grp g c) 0 = c / g * g + (t + c mod g) mod g.
Proof.
  intros Ht. unfold grp. erewrite nth_indep by (rewrite map_length, seq_length; auto).
  rewrite (map_nth (fun t => c / g * g + (t + c mod g) mod g) (seq 0 g) 0). now rewrite seq_nth.
Qed.

Section Copyin.
  Context (counts : list Z) (fracs : list nat) (ts : Z) (g : nat) (fast : bool).
  Notation tot := (total counts).
  Hypothesis counts_nn : Forall (fun z => (0 <= z)%Z) counts.
  Hypothesis fracs_perm : Permutation fracs (seq 0 (length counts)).
  Hypothesis ts_pos : (0 < ts)%Z.
  Hypothesis tot_ts : exists q, (tot = q * ts)%Z.
  Hypothesis g_pos : 0 < g.

  Notation addr := (iaddr fast tot).
  Definition src (x : Z) : Z := source counts fracs 0 x.

  Definition cmoves (c i : nat) : list instr :=
    line_moves (if i =? 0 then Copy else Reduce) counts (addr (c / g) 0)
      (pst tot ts g (pidx g c i)) (psz tot ts g (pidx g c i)) fracs 0.

  Definition cacts (c i : nat) : list act :=
    map (fun x => (if i =? 0 then Copy else Reduce, addr (c / g) x, Snd (src x)))
      (zrange (pst tot ts g (pidx g c i)) (pst tot ts g (pidx g c i) + psz tot ts g (pidx g c i))).

  Lemma tot_nn : (0 <= tot)%Z.
  Proof. pose proof (moffset_mono counts counts_nn 0 (length counts) ltac:(lia)) as Q. exact Q. Qed.

  Lemma lsum_seq k : k <= length counts -> lsum counts (seq 0 k) = moffset counts k.
  Proof.
    induction k as [|k IH]; intros Hk; [reflexivity|].
    rewrite seq_S. unfold lsum. rewrite fold_right_app. cbn [fold_right plus].
    rewrite moffset_S by auto. rewrite <- IH by lia. unfold lsum.
    generalize (nth k counts 0)%Z. intros z. clear.
    replace (z + 0)%Z with (0 + z)%Z by lia. generalize 0%Z at 1 3.
    induction (seq 0 k) as [|f l IH]; intros a; simpl; [lia|]. rewrite IH. lia.
  Qed.

  Lemma lsum_perm l l' : Permutation l l' -> lsum counts l = lsum counts l'.
  Proof. unfold lsum. induction 1; simpl; lia. Qed.

  Lemma lsum_total : lsum counts fracs = tot.
  Proof. rewrite (lsum_perm _ _ fracs_perm). now apply lsum_seq. Qed.

  Lemma pidx_lt c i : pidx g c i < g.
  Proof. apply Nat.mod_upper_bound. lia. Qed.

  Lemma cmoves_acts c i : Forall is_move (cmoves c i) /\ macts (cmoves c i) = cacts c i.
  Proof.
    destruct (piece_in tot ts g ts_pos tot_nn tot_ts g_pos (pidx g c i) (pidx_lt c i)) as (A & B & D).
    destruct (line_moves_acts counts counts_nn (if i =? 0 then Copy else Reduce) (addr (c / g) 0)
                (pst tot ts g (pidx g c i)) (psz tot ts g (pidx g c i)) A B D fracs 0) as (E1 & E2).
    - intros f Hf. apply (Permutation_in _ fracs_perm) in Hf. apply in_seq in Hf. lia.
    - lia.
    - split; [exact E1|]. unfold cmoves. rewrite E2. unfold cacts. rewrite lsum_total.
      rewrite Z.max_l, Z.min_l by lia. apply map_ext. intros x.
      replace (addr (c / g) 0 + x)%Z with (addr (c / g) x) by (unfold iaddr; destruct fast; lia). reflexivity.
  Qed.

  Definition chunk (c i : nat) : list instr := bar c [pred_ g c] ++ cmoves c i.

  Lemma copyin_code c :
    reduce_copyin counts fracs (Z.rem (Z.of_nat c) (Z.of_nat g)) ts (Z.quot (Z.of_nat c) (Z.of_nat g))
      (Z.of_nat g) (map Z.of_nat (grp g c)) fast =
    cmoves c 0 ++ flat_map (chunk c) (seq 1 (g - 1)) ++ bar c (gdiss g c).
  Proof.
    unfold reduce_copyin. rewrite rem_nat, quot_nat by lia. rewrite Nat2Z.id.
    assert (A0 : at_ (map Z.of_nat (grp g c)) 0 = Z.of_nat c).
    { change 0%Z with (Z.of_nat 0). rewrite at_map, nth_grp by lia. f_equal. simpl (0 + _).
      rewrite Nat.mod_mod by lia. rewrite (Nat.div_mod c g) at 3 by lia. lia. }
    rewrite (lb_fin c g g _ (fun e => c / g * g + (c mod g + 2 ^ e) mod g)); auto.
    2:{ intros e He. apply clg_lt in He. rewrite at_map. rewrite nth_grp by (apply Nat.mod_upper_bound; lia).
        f_equal. f_equal. rewrite Nat.add_mod_idemp_l by lia. f_equal. lia. }
    change (rounds _ _) with (gdiss g c). rewrite app_assoc. f_equal.
    (* move the pair of each round to the front of the next *)
    assert (Ai : forall i, i < g -> (let '(al, sl) := piece tot ts (Z.of_nat g)
        (Z.rem (2 * Z.of_nat g - 1 + Z.of_nat (c mod g) - Z.of_nat i) (Z.of_nat g)) in
        line_moves (if (Z.of_nat i =? 0)%Z then Copy else Reduce) counts
          (if fast then (Z.of_nat (c / g) * CACHE_LINE_SIZE + OFFSET_FAST)%Z else (Z.of_nat (c / g) * tot)%Z) al sl fracs 0 ++
        (if (Z.of_nat i <? Z.of_nat g - 1)%Z then [Set_ (at_ (map Z.of_nat (grp g c)) 0);
             Wait (at_ (map Z.of_nat (grp g c)) (Z.of_nat g - 1))] else [])) =
       cmoves c i ++ (if i <? g - 1 then bar c [pred_ g c] else [])).
    { intros i Hi.
      replace (2 * Z.of_nat g - 1 + Z.of_nat (c mod g) - Z.of_nat i)%Z with (Z.of_nat (2 * g - 1 + c mod g - i)) by lia.
      rewrite rem_nat by lia. fold (pidx g c i). unfold cmoves, pst, psz.
      destruct (piece tot ts (Z.of_nat g) (Z.of_nat (pidx g c i))) as (al, sl). cbn [fst snd].
      f_equal.
      - f_equal.
        + destruct i; reflexivity.
        + unfold iaddr, CACHE_LINE_SIZE, OFFSET_FAST. destruct fast; lia.
      - destruct (Z.ltb_spec (Z.of_nat i) (Z.of_nat g - 1)), (Nat.ltb_spec i (g - 1)); try lia; auto.
        rewrite A0. replace (Z.of_nat g - 1)%Z with (Z.of_nat (g - 1)) by lia. rewrite at_map, nth_grp by lia.
        unfold pred_. rewrite (Nat.add_comm (g - 1)). reflexivity. }
    rewrite (flat_map_eq_in _ (fun i => cmoves c i ++ (if i <? g - 1 then bar c [pred_ g c] else []))).
    2:{ intros i Ii. apply in_seq in Ii. apply Ai. lia. }
    clear Ai A0.
    assert (Q : forall k, k < g ->
       flat_map (fun i => cmoves c i ++ (if i <? g - 1 then bar c [pred_ g c] else [])) (seq 0 (S k)) =
       cmoves c 0 ++ flat_map (chunk c) (seq 1 k) ++ (if k <? g - 1 then bar c [pred_ g c] else [])).
    { induction k as [|k IH]; intros Hk.
      - cbn [seq flat_map]. now rewrite app_nil_r.
      - rewrite seq_S, flat_map_app, IH by lia. rewrite (proj2 (Nat.ltb_lt k (g - 1))) by lia.
        rewrite (seq_S k 1), flat_map_app. cbn [flat_map]. rewrite !app_nil_r. cbn [plus]. unfold chunk at 2.
        rewrite <- !app_assoc. reflexivity. }
    specialize (Q (g - 1) ltac:(lia)). replace (S (g - 1)) with g in Q by lia. rewrite Q.
    rewrite Nat.ltb_irrefl. now rewrite app_nil_r.
  Qed.

  (* ---- which core does what ---- *)
  Lemma in_cacts c i k d s : In (k, d, s) (cacts c i) ->
    exists x, k = (if i =? 0 then Copy else Reduce) /\ d = addr (c / g) x /\ s = Snd (src x) /\ (0 <= x < tot)%Z /\
      (pst tot ts g (pidx g c i) <= x < pst tot ts g (pidx g c i) + psz tot ts g (pidx g c i))%Z.
  Proof.
    unfold cacts. intros I. apply in_map_iff in I. destruct I as (x & E & Ix). apply in_zrange in Ix.
    inversion E; subst. exists x. repeat split; try lia.
    - destruct (piece_in tot ts g ts_pos tot_nn tot_ts g_pos (pidx g c i) (pidx_lt c i)). lia.
    - destruct (piece_in tot ts g ts_pos tot_nn tot_ts g_pos (pidx g c i) (pidx_lt c i)). lia.
  Qed.

  (* the core of a group that handles piece p in step i *)
  Definition worker (p i : nat) : nat := (p + 1 + i) mod g.

  Lemma pidx_worker c i p : i < g -> p < g -> pidx g c i = p <-> c mod g = worker p i.
  Proof.
    intros Hi Hp. unfold pidx, worker.
    pose proof (Nat.mod_upper_bound c g ltac:(lia)) as Hc. revert Hc. generalize (c mod g). intros r Hr.
    assert (Q : forall a b, a < 3 * g -> a mod g = b <-> (b < g /\ (a = b \/ a = b + g \/ a = b + 2 * g))).
    { intros a b Ha. split.
      - intros <-. split; [apply Nat.mod_upper_bound; lia|].
        pose proof (Nat.div_mod a g ltac:(lia)) as E. 
        assert (a / g < 3) by (apply Nat.div_lt_upper_bound; lia).
        destruct (a / g) as [|[|[|z]]]; lia.
      - intros (Hb & [-> | [-> | ->]]).
        + now apply Nat.mod_small.
        + replace (b + g) with (b + 1 * g) by lia. rewrite Nat.mod_add by lia. now apply Nat.mod_small.
        + rewrite Nat.mod_add by lia. now apply Nat.mod_small. }
    rewrite Q by lia. split.
    - intros (_ & E). symmetry. apply Q; [lia|]. split; [lia|]. lia.
    - intros E. symmetry in E. apply Q in E; [|lia]. lia.
  Qed.

  Lemma worker_lt p i : worker p i < g.
  Proof. apply Nat.mod_upper_bound. lia. Qed.

  Lemma worker_inj p i j : i < g -> j < g -> worker p i = worker p j -> i = j.
  Proof.
    unfold worker. intros Hi Hj E.
    destruct (lt_eq_lt_dec i j) as [[L|L]|L]; auto; exfalso.
    - assert (X : (p + 1 + j - (p + 1 + i)) mod g = 0).
      { apply (Nat.mod_divide); [lia|].
        pose proof (Nat.div_mod (p + 1 + i) g ltac:(lia)). pose proof (Nat.div_mod (p + 1 + j) g ltac:(lia)).
        exists ((p + 1 + j) / g - (p + 1 + i) / g). rewrite Nat.mul_sub_distr_r. lia. }
      rewrite Nat.mod_small in X by lia. lia.
    - assert (X : (p + 1 + i - (p + 1 + j)) mod g = 0).
      { apply (Nat.mod_divide); [lia|].
        pose proof (Nat.div_mod (p + 1 + i) g ltac:(lia)). pose proof (Nat.div_mod (p + 1 + j) g ltac:(lia)).
        exists ((p + 1 + i) / g - (p + 1 + j) / g). rewrite Nat.mul_sub_distr_r. lia. }
      rewrite Nat.mod_small in X by lia. lia.
  Qed.
End Copyin.
