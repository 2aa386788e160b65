(* The instructions of reduce_copies as items. *)
From Verif Require Import Base BarrierModel NodeModel SyncProofs SyncItems TreeProofs TreeKnow NodeCode NodeCopyin NodeLayout.
From Coq Require Import Permutation.
Local Open Scope nat_scope.
Local Ltac Zify.zify_post_hook ::= idtac.

Lemma copy_offset_eq fast sz f0 i off : (0 < sz)%Z -> (0 <= off < sz)%Z -> 0 < f0 ->
  copy_offset fast sz (Z.of_nat f0) (Z.of_nat (f0 * i) * sz + off) = iaddr fast sz i off.
Proof.
  intros Hs Ho Hf. unfold copy_offset, iaddr.
  assert (E1 : Z.rem (Z.of_nat (f0 * i) * sz + off) sz = off).
  { rewrite Z.rem_mod_nonneg by nia. rewrite Z.add_comm, Z.mod_add by lia. apply Z.mod_small. lia. }
  assert (E2 : Z.quot (Z.of_nat (f0 * i) * sz + off) sz = Z.of_nat (f0 * i)).
  { rewrite Z.quot_div_nonneg by nia. rewrite Z.add_comm, Z.div_add by lia. rewrite Z.div_small by lia. lia. }
  rewrite E1, E2. destruct fast.
  - replace (Z.of_nat (f0 * i)) with (Z.of_nat i * Z.of_nat f0)%Z by lia. rewrite Z.quot_mul by lia. unfold CACHE_LINE_SIZE, OFFSET_FAST. lia.
  - replace (Z.of_nat (f0 * i) * sz)%Z with (Z.of_nat i * sz * Z.of_nat f0)%Z by lia.
    rewrite Z.quot_mul by lia. lia.
Qed.

Lemma rotate_at l1 r l2 : ~ In r l1 -> forall fuel, length l1 < fuel ->
  rotate fuel r (l1 ++ r :: l2) = r :: l2 ++ l1.
Proof.
  revert l2. induction l1 as [|a l1 IH]; intros l2 N fuel Hf; (destruct fuel as [|fuel]; [simpl in Hf; lia|]).
  - cbn [rotate app]. rewrite Z.eqb_refl. now rewrite app_nil_r.
  - cbn [rotate app]. rewrite (proj2 (Z.eqb_neq a r)) by (intros ->; apply N; simpl; auto).
    rewrite <- app_assoc. cbn [app]. rewrite IH.
    + now rewrite <- app_assoc.
    + intros I. apply N. simpl. auto.
    + simpl in Hf. lia.
Qed.

Lemma skipn_nth (l : list nat) : forall i, i < length l -> skipn i l = nth i l 0 :: skipn (S i) l.
Proof.
  induction l as [|a l IH]; intros i Hi; [simpl in Hi; lia|].
  destruct i; [reflexivity|]. simpl in Hi. cbn [nth skipn]. rewrite IH by lia. reflexivity.
Qed.

Lemma nth_skip (l : list nat) : forall i t, nth t (skipn i l) 0 = nth (i + t) l 0.
Proof.
  induction l as [|a l IH]; intros i t; [rewrite skipn_nil; destruct t, i; reflexivity|].
  destruct i; [reflexivity|]. cbn [skipn plus nth]. apply IH.
Qed.
Lemma nth_first (l : list nat) : forall i t, t < i -> nth t (firstn i l) 0 = nth t l 0.
Proof.
  induction l as [|a l IH]; intros i t Ht; [rewrite firstn_nil; reflexivity|].
  destruct i; [lia|]. destruct t; [reflexivity|]. cbn [firstn nth]. apply IH. lia.
Qed.

Section Code.
  Context (h : nat) (ts sz : Z) (f0 : nat) (fac : nat -> nat) (F : nat) (fast subset : bool).
  Hypothesis ts_pos : (0 < ts)%Z.
  Hypothesis sz_pos : (0 < sz)%Z.
  Hypothesis sz_ts : exists q, (sz = q * ts)%Z.
  Hypothesis f0_pos : 0 < f0.
  Hypothesis fac_pos : forall s, 0 < fac s.
  Hypothesis h_pos : 0 < h.
  Hypothesis F_pos : 0 < F.

  Notation Hs := (H fac).
  Notation Ds := (D f0 fac).
  Notation Cs := (C ts sz f0 fac).
  Notation v := (Ds (F - 1)).
  Notation mem_ := (mem_ h ts sz f0 fac).
  Notation addr := (iaddr fast sz).
  Notation pos := (pos f0 fac).
  Notation nbr := (nbr h f0 fac).
  Notation busy := (busy ts sz f0 fac).
  Notation perm := (perm f0 fac).

  Hypothesis h_v : h <= v.
  Hypothesis whole : v = h \/ (sz < 128)%Z.

  Notation base s r := (r / Ds (S s) * Ds (S s) + (r mod Ds (S s)) mod Ds s).
  Notation idx s r := ((r mod Ds (S s)) / Ds s).

  (* the cores that core r waits for at level s + 1 *)
  Definition wlev (s r : nat) : list nat :=
    if (r <? h) && busy s r
    then rounds (clg (nbr s r)) (fun e => base s r + ((idx s r + 2 ^ e) mod nbr s r) * Ds s) ++
         repeat r (clg (fac (S s)) - clg (nbr s r))
    else repeat r (clg (fac (S s))).

  Definition lmoves (s r : nat) : list instr :=
    let own := mem_ (S s) (own_index v (mem_ (S s)) (Z.of_nat r)) in
    (if (l_size own =? 0)%Z then [] else
     flat_map (fun i =>
       let o1 := l_offset own in
       let o2 := (l_offset own + Z.of_nat i * sz * Z.of_nat (Ds s))%Z in
       if (Z.of_nat r <? Z.of_nat v)%Z
       then [Move Reduce (copy_offset fast sz (Z.of_nat f0) o1) (Shm (copy_offset fast sz (Z.of_nat f0) o2)) (l_size own)]
       else []) (seq 1 (fac (S s) - 1))).

  Lemma wlev_len s r : r < h \/ v = h -> length (wlev s r) = clg (fac (S s)).
  Proof.
    intros _. unfold wlev, rounds. destruct ((r <? h) && busy s r).
    - rewrite app_length, map_length, seq_length, repeat_length.
      pose proof (clg_mono _ _ (nbr_le h sz f0 fac F f0_pos fac_pos h_pos F_pos h_v whole s r)). lia.
    - apply repeat_length.
  Qed.

  Lemma step_code_eq s r : S s < F -> (r < h \/ v = h) ->
    step_code (Z.of_nat h) sz fast (Z.of_nat f0) v (fac (S s)) (Ds s) (mem_ (S s)) (Z.of_nat r) =
    bar r (wlev s r) ++ lmoves s r.
  Proof.
    intros Hs Hr. unfold step_code. destruct (le_lt_dec h r) as [G|L].
    - unfold step_ranks. rewrite (proj2 (Z.leb_le _ _)) by lia.
      change 0%Z with (Z.of_nat 0) at 1.
      rewrite (lb_all r (fac (S s)) 0 [Z.of_nat r] (fun _ => 0)); [|reflexivity|intros e He; apply clg_lt in He; inversion He].
      unfold wlev. rewrite (proj2 (Nat.ltb_ge _ _)) by lia. cbn [andb]. change (clg 0) with 0. rewrite Nat.sub_0_r. reflexivity.
    - destruct (step_ranks_eq h ts sz f0 fac F ts_pos sz_pos sz_ts f0_pos fac_pos h_pos F_pos h_v whole s r Hs L)
        as (ranks & E & A0 & Eb). rewrite E. unfold wlev. rewrite (proj2 (Nat.ltb_lt _ _) L). cbn [andb].
      pose proof (idx_nbr h sz f0 fac F f0_pos fac_pos h_pos F_pos h_v whole s r L) as Hin.
      assert (Hn : 0 < nbr s r) by (eapply Nat.le_lt_trans; [apply Nat.le_0_l|exact Hin]).
      destruct (busy s r) eqn:B.
      + specialize (Eb eq_refl).
        rewrite (lb_all r (fac (S s)) (nbr s r) ranks (fun e => base s r + ((idx s r + 2 ^ e) mod nbr s r) * Ds s)); [reflexivity|auto|].
        intros e He. rewrite Eb. unfold at_. rewrite Nat2Z.id.
        assert (Hm : 2 ^ e mod nbr s r < nbr s r) by (apply Nat.mod_upper_bound; lia).
        rewrite (nth_indep _ 0%Z (Z.of_nat (base s r + ((0 + idx s r) mod nbr s r) * Ds s))) by (rewrite map_length, seq_length; lia).
        rewrite (map_nth (fun t => Z.of_nat (base s r + ((t + idx s r) mod nbr s r) * Ds s))). rewrite seq_nth by lia.
        f_equal. f_equal. f_equal. rewrite Nat.add_0_l, Nat.add_mod_idemp_l by lia. f_equal. apply Nat.add_comm.
      + change 0%Z with (Z.of_nat 0) at 1.
        rewrite (lb_all r (fac (S s)) 0 ranks (fun _ => 0)); [|auto|intros e He; apply clg_lt in He; inversion He].
        change (clg 0) with 0. rewrite Nat.sub_0_r. reflexivity.
  Qed.

  Lemma lmoves_acts s r : S s < F -> (r < h \/ v = h) -> Forall is_move (lmoves s r) /\
    macts (lmoves s r) = if r <? h then level_acts ts sz f0 fac addr s r else [].
  Proof.
    intros HsF Hr. unfold lmoves. destruct (Nat.ltb_spec r h) as [L|G].
    - rewrite (own_index_eq h ts sz f0 fac F) by auto.
      destruct (pos_lay h ts sz f0 fac F ts_pos sz_pos sz_ts f0_pos fac_pos h_pos F_pos h_v whole (S s) r HsF L) as (E1 & E2).
      rewrite E1. unfold level_acts. set (y := r mod Ds (S s)) in *. set (b := r / Ds (S s)) in *.
      assert (Hy : y < Ds (S s)) by (apply Nat.mod_upper_bound; pose proof (DP f0 fac f0_pos fac_pos (S s)); lia).
      pose proof (C_le h ts sz f0 fac F ts_pos sz_pos sz_ts f0_pos fac_pos h_pos F_pos h_v whole (S s) y Hy) as Cl.
      destruct (Cs (S s) y) as (size & off). cbn [fst snd] in *.
      destruct (Z.eqb_spec size 0) as [Z0|NZ].
      + split; [constructor|]. rewrite Z0. cbn [macts flat_map]. symmetry. apply flat_map_nil.
        intros i _. reflexivity.
      + rewrite (E2 NZ). clear E1 E2.
        rewrite (proj2 (Z.ltb_lt _ _)) by lia.
        split.
        * apply Forall_forall. intros z Iz. apply in_flat_map in Iz. destruct Iz as (i & _ & [<-|[]]). exact I.
        * unfold macts.
          assert (Q : forall l, flat_map move_acts (flat_map (fun i => [Move Reduce
              (copy_offset fast sz (Z.of_nat f0) (Z.of_nat (b * Ds (S s)) * sz + off))
              (Shm (copy_offset fast sz (Z.of_nat f0) (Z.of_nat (b * Ds (S s)) * sz + off + Z.of_nat i * sz * Z.of_nat (Ds s)))) size]) l) =
             flat_map (fun i => map (fun o => (Reduce, addr (b * Hs (S s)) (off + o)%Z,
               Shm (addr (b * Hs (S s) + i * Hs s) (off + o)%Z))) (zseq size)) l).
          { induction l as [|i l IH]; [reflexivity|]. cbn [flat_map]. rewrite <- IH. cbn [app flat_map]. f_equal.
            cbn [move_acts]. unfold zseq. rewrite map_map. apply map_ext. intros o.
            assert (A1 : copy_offset fast sz (Z.of_nat f0) (Z.of_nat (b * Ds (S s)) * sz + off) = addr (b * Hs (S s)) off).
            { rewrite <- (copy_offset_eq fast sz f0 (b * Hs (S s)) off) by lia. f_equal. f_equal. f_equal. f_equal. unfold D. ring. }
            assert (A2 : copy_offset fast sz (Z.of_nat f0) (Z.of_nat (b * Ds (S s)) * sz + off + Z.of_nat i * sz * Z.of_nat (Ds s)) =
                         addr (b * Hs (S s) + i * Hs s) off).
            { rewrite <- (copy_offset_eq fast sz f0 (b * Hs (S s) + i * Hs s) off) by lia. f_equal.
              unfold D. rewrite !Nat2Z.inj_mul, Nat2Z.inj_add, !Nat2Z.inj_mul. ring. }
            rewrite A1, A2. cbn [shift].
            assert (Ea : forall a, (addr a off + Z.of_nat o = addr a (off + Z.of_nat o))%Z).
            { intros a. unfold iaddr. destruct fast; ring. }
            rewrite !Ea. reflexivity. }
          apply Q.
    - destruct Hr as [Hr|Hr]; [lia|].
      assert (Nv : (Z.of_nat r <? Z.of_nat v)%Z = false) by (apply Z.ltb_ge; lia). rewrite Nv.
      destruct (_ =? 0)%Z; [split; [constructor|reflexivity]|].
      rewrite flat_map_nil by auto. split; [constructor|reflexivity].
  Qed.

  (* the loop *)
  Lemma copy_steps_eq r : (r < h \/ v = h) -> forall k s, s + k < F ->
    copy_steps (Z.of_nat h) sz ts fast (Z.of_nat f0) v (Z.of_nat r) (S s) (map fac (seq (S s) k)) (Ds s) (mem_ s) =
    (flat_map (fun t => bar r (wlev t r) ++ lmoves t r) (seq s k), mem_ (s + k)).
  Proof.
    intros Hr. induction k as [|k IH]; intros s Hk.
    - cbn [seq map copy_steps flat_map]. now rewrite Nat.add_0_r.
    - cbn [seq map copy_steps flat_map]. change (1 <=? S s) with true. cbn iota.
      replace (Ds s * fac (S s)) with (Ds (S s)) by (apply D_S).
      change (memory_step (Z.of_nat h) sz ts (fac (S s)) (Ds s) (mem_ s)) with (mem_ (S s)).
      rewrite IH by lia. rewrite step_code_eq by (auto; lia). do 2 f_equal. lia.
  Qed.

  Lemma prod_v : forall k s, fold_right Nat.mul 1 (map fac (seq (S s) k)) * Hs s = Hs (s + k).
  Proof.
    induction k as [|k IH]; intros s; [cbn [seq map fold_right]; rewrite Nat.add_0_r; apply Nat.mul_1_l|].
    cbn [seq map fold_right]. replace (s + S k) with (S s + k) by lia. rewrite <- IH. cbn [H]. ring.
  Qed.

  Definition factors_ : list nat := f0 :: map fac (seq 1 (F - 1)).

  (* the cores with a piece at the end, in the order of memory_new *)
  Definition blist : list nat :=
    map (perm (F - 1)) (filter (fun q => negb (fst (Cs (F - 1) (perm (F - 1) q)) =? 0)%Z) (seq 0 v)).

  Notation isbusy r := (negb (fst (Cs (F - 1) r) =? 0)%Z).

  Lemma blist_in r : In r blist <-> r < h /\ fst (Cs (F - 1) r) <> 0%Z.
  Proof.
    unfold blist. rewrite in_map_iff. split.
    - intros (q & E & I). apply filter_In in I. destruct I as (I & B). apply in_seq in I.
      apply negb_true_iff, Z.eqb_neq in B. rewrite E in B. split; [|auto].
      pose proof (perm_lt f0 fac f0_pos fac_pos (F - 1) q ltac:(lia)) as Hp. rewrite E in Hp.
      pose proof (own_real h ts sz f0 fac F ts_pos sz_pos sz_ts f0_pos fac_pos h_pos F_pos h_v whole (F - 1) 0 r ltac:(lia) ltac:(lia) Hp B). lia.
    - intros (Hr & NZ). exists (inv f0 fac (F - 1) r). rewrite (perm_inv f0 fac f0_pos fac_pos) by lia.
      split; [reflexivity|]. apply filter_In. split.
      + apply in_seq. pose proof (inv_lt f0 fac f0_pos fac_pos (F - 1) r ltac:(lia)). lia.
      + rewrite (perm_inv f0 fac f0_pos fac_pos) by lia. now apply negb_true_iff, Z.eqb_neq.
  Qed.

  Lemma blist_nodup : NoDup blist.
  Proof.
    unfold blist.
    assert (Q : forall l, NoDup l -> (forall q, In q l -> q < v) -> NoDup (map (perm (F - 1)) l)).
    { induction 1 as [|q l Hq ND IH]; intros B; [constructor|]. cbn [map]. constructor.
      - intros I. apply in_map_iff in I. destruct I as (q' & E & Iq').
        assert (q' = q); [|subst; contradiction].
        rewrite <- (inv_perm f0 fac f0_pos fac_pos (F - 1) q'), <- (inv_perm f0 fac f0_pos fac_pos (F - 1) q)
          by (apply B; simpl; auto). now rewrite E.
      - apply IH. intros; apply B; simpl; auto. }
    apply Q; [apply NoDup_filter, seq_NoDup|]. intros q I. apply filter_In in I. destruct I as (I & _). apply in_seq in I. lia.
  Qed.

  Lemma blist_zero : In 0 blist.
  Proof.
    apply blist_in. split; [auto|].
    pose proof (C_zero ts sz f0 fac ts_pos ltac:(lia) sz_ts f0_pos fac_pos (F - 1) sz_pos). lia.
  Qed.

  Notation nB := (length blist).

  Lemma nB_pos : 0 < nB.
  Proof. pose proof blist_zero as Q. destruct blist; [destruct Q|simpl; lia]. Qed.

  Lemma nB_h : nB = h -> forall r, r < h -> In r blist.
  Proof.
    intros E. assert (Inc : incl blist (seq 0 h)).
    { intros r I. apply blist_in in I. apply in_seq. lia. }
    intros r Hr. apply (NoDup_length_incl blist_nodup (l' := seq 0 h)).
    - rewrite seq_length. lia.
    - exact Inc.
    - apply in_seq. lia.
  Qed.

  (* position in the list *)
  Fixpoint index (r : nat) (l : list nat) : nat :=
    match l with [] => 0 | a :: l' => if a =? r then 0 else S (index r l') end.
  Lemma index_spec r l : In r l -> index r l < length l /\ nth (index r l) l 0 = r.
  Proof.
    induction l as [|a l IH]; intros I; [destruct I|]. simpl. destruct (Nat.eqb_spec a r) as [->|N]; [split; [lia|auto]|].
    destruct I as [I|I]; [congruence|]. destruct (IH I). split; [lia|auto].
  Qed.
  Lemma index_nth l i : NoDup l -> i < length l -> index (nth i l 0) l = i.
  Proof.
    intros ND. revert i. induction ND as [|a l Ha ND IH]; intros i Hi; [simpl in Hi; lia|].
    destruct i as [|i]; simpl.
    - now rewrite Nat.eqb_refl.
    - simpl in Hi. rewrite (proj2 (Nat.eqb_neq a _)); [f_equal; apply IH; lia|].
      intros ->. apply Ha. apply nth_In. lia.
  Qed.

  (* items P0 + F and P0 + F + 1 *)
  Definition all_busy : bool := (nB =? h) && negb subset.
  Definition wfin (r : nat) : list nat :=
    if all_busy then diss h r
    else if (r <? h) && isbusy r
      then rounds (clg nB) (fun e => nth ((index r blist + 2 ^ e) mod nB) blist 0)
      else repeat r (clg nB).
  Definition wend : list nat := if all_busy then [] else [0].

  Lemma mem_block q : q < v -> l_size (mem_ (F - 1) q) = fst (Cs (F - 1) (perm (F - 1) q)) /\
    l_rank (mem_ (F - 1) q) = rank_of h (perm (F - 1) q).
  Proof.
    intros Hq. destruct (mem_ok h ts sz f0 fac F ts_pos sz_pos sz_ts f0_pos fac_pos h_pos F_pos h_v whole (F - 1) ltac:(lia) 0 q Hq) as (A & B & _).
    cbv zeta in A, B. rewrite Nat.mul_0_l, Nat.add_0_l in A, B. split; [|exact A]. apply B. lia.
  Qed.

  Lemma final_busy :
    map (fun i => l_rank (mem_ (F - 1) i)) (filter (fun i => negb (l_size (mem_ (F - 1) i) =? 0)%Z) (seq 0 v)) =
    map Z.of_nat blist.
  Proof.
    unfold blist. rewrite map_map.
    assert (Ef : filter (fun i => negb (l_size (mem_ (F - 1) i) =? 0)%Z) (seq 0 v) =
                 filter (fun q => negb (fst (Cs (F - 1) (perm (F - 1) q)) =? 0)%Z) (seq 0 v)).
    { apply filter_ext_in. intros q I. apply in_seq in I. now rewrite (proj1 (mem_block q ltac:(lia))). }
    rewrite Ef. apply map_ext_in. intros q I.
    assert (Ib : In (perm (F - 1) q) blist) by (unfold blist; apply in_map; exact I).
    apply blist_in in Ib. apply filter_In in I. destruct I as (I & _). apply in_seq in I.
    rewrite (proj2 (mem_block q ltac:(lia))). unfold rank_of. now rewrite (proj2 (Nat.ltb_lt _ _)) by lia.
  Qed.

  Lemma final_code_eq r : (r < h \/ subset = true) ->
    final_code (Z.of_nat h) subset v (mem_ (F - 1)) (Z.of_nat r) = bar r (wfin r) ++ bar r wend.
  Proof.
    intros Hr. unfold final_code. rewrite final_busy. rewrite map_length.
    assert (Eb : existsb (Z.eqb (Z.of_nat r)) (map Z.of_nat blist) = (r <? h) && isbusy r).
    { apply eq_true_iff_eq. rewrite existsb_exists, andb_true_iff, Nat.ltb_lt, negb_true_iff, Z.eqb_neq, <- blist_in. split.
      - intros (z & I & E). apply Z.eqb_eq in E. subst z. apply in_map_iff in I. destruct I as (r' & E & I).
        apply Nat2Z.inj in E. now subst.
      - intros I. exists (Z.of_nat r). split; [now apply in_map|apply Z.eqb_refl]. }
    rewrite Eb. pose proof nB_pos as NP. unfold wfin, wend, all_busy.
    destruct ((r <? h) && isbusy r) eqn:B.
    - assert (I : In r blist) by (apply blist_in; apply andb_true_iff in B; destruct B as (B1 & B2);
        apply Nat.ltb_lt in B1; apply negb_true_iff, Z.eqb_neq in B2; auto).
      assert (Eh : (Z.of_nat h =? Z.of_nat nB)%Z = (nB =? h)).
      { apply eq_true_iff_eq. rewrite Z.eqb_eq, Nat.eqb_eq. lia. }
      rewrite Eh. destruct ((nB =? h) && negb subset) eqn:A.
      + cbn [bar flat_map]. rewrite app_nil_r. apply sb_eq. apply blist_in in I. lia.
      + cbn [bar flat_map]. f_equal.
        destruct (index_spec r blist I) as (Hi & En).
        assert (Sp : blist = firstn (index r blist) blist ++ r :: skipn (S (index r blist)) blist).
        { rewrite <- (firstn_skipn (index r blist) blist) at 1. f_equal.
          rewrite skipn_nth by auto. now rewrite En. }
        assert (Er : rotate nB (Z.of_nat r) (map Z.of_nat blist) =
                     map Z.of_nat (map (fun t => nth ((index r blist + t) mod nB) blist 0) (seq 0 nB))).
        { rewrite Sp at 2. rewrite map_app. cbn [map]. rewrite rotate_at.
          - change (Z.of_nat r :: ?a ++ ?b) with ((Z.of_nat r :: a) ++ b).
            rewrite <- (map_cons Z.of_nat r), <- map_app. f_equal.
            apply (nth_ext _ _ 0 0).
            + rewrite map_length, seq_length. rewrite app_length. cbn [length]. rewrite skipn_length, firstn_length. lia.
            + intros t Ht. rewrite app_length in Ht. cbn [length] in Ht. rewrite skipn_length, firstn_length in Ht.
              rewrite (nth_indep (map _ _) 0 (nth ((index r blist + 0) mod nB) blist 0)) by (rewrite map_length, seq_length; lia).
              rewrite (map_nth (fun t => nth ((index r blist + t) mod nB) blist 0)). rewrite seq_nth by lia.
              rewrite Nat.add_0_l.
              assert (Et : r :: skipn (S (index r blist)) blist = skipn (index r blist) blist).
              { rewrite (skipn_nth blist (index r blist) Hi). now rewrite En. }
              rewrite Et.
              destruct (le_lt_dec nB (index r blist + t)) as [G|L].
              * rewrite app_nth2 by (rewrite skipn_length; lia). rewrite skipn_length.
                replace (index r blist + t) with ((index r blist + t - nB) + 1 * nB) by lia.
                rewrite Nat.mod_add, Nat.mod_small by lia.
                rewrite nth_first by lia. f_equal. lia.
              * rewrite app_nth1 by (rewrite skipn_length; lia). rewrite Nat.mod_small by lia. apply nth_skip.
          - intros J. apply in_map_iff in J. destruct J as (r' & E & J). apply Nat2Z.inj in E. subst r'.
            pose proof blist_nodup as ND. rewrite Sp in ND. apply NoDup_remove_2 in ND. apply ND. apply in_or_app. auto.
          - rewrite map_length, firstn_length. lia. }
        rewrite Er.
        apply (lb_fin r h nB _ (fun e => nth ((index r blist + 2 ^ e) mod nB) blist 0)); auto.
        * change 0%Z with (Z.of_nat 0). rewrite at_map. f_equal.
          rewrite (nth_indep _ 0 (nth ((index r blist + 0) mod nB) blist 0)) by (rewrite map_length, seq_length; lia).
          rewrite (map_nth (fun t => nth ((index r blist + t) mod nB) blist 0)). rewrite seq_nth by lia.
          rewrite !Nat.add_0_r, Nat.mod_small by lia. auto.
        * intros e He. rewrite at_map. f_equal.
          assert (Hm : 2 ^ e mod nB < nB) by (apply Nat.mod_upper_bound; lia).
          rewrite (nth_indep _ 0 (nth ((index r blist + 0) mod nB) blist 0)) by (rewrite map_length, seq_length; lia).
          rewrite (map_nth (fun t => nth ((index r blist + t) mod nB) blist 0)). rewrite seq_nth by lia.
          rewrite Nat.add_0_l, Nat.add_mod_idemp_r by lia. reflexivity.
    - assert (A : (nB =? h) && negb subset = false).
      { destruct (Nat.eqb_spec nB h) as [E|E]; [|reflexivity]. destruct subset; [reflexivity|exfalso].
        destruct Hr as [Hr|Hr]; [|discriminate]. pose proof (nB_h E r Hr) as I. apply blist_in in I.
        rewrite (proj2 (Nat.ltb_lt _ _)) in B by lia. cbn [andb] in B. apply negb_false_iff, Z.eqb_eq in B. lia. }
      rewrite A. assert (En : (Z.of_nat h =? - Z.of_nat nB)%Z = false) by (apply Z.eqb_neq; lia).
      rewrite En. cbn [andb]. rewrite lb_idle by auto. reflexivity.
  Qed.

  Theorem copies_code r : (r < h \/ (v = h /\ subset = true)) ->
    reduce_copies (Z.of_nat h) factors_ sz ts (Z.of_nat r) fast subset =
    flat_map (fun t => bar r (wlev t r) ++ lmoves t r) (seq 0 (F - 1)) ++ bar r (wfin r) ++ bar r wend.
  Proof.
    intros Hr. unfold reduce_copies, factors_. cbn [hd fold_right].
    assert (Ev : f0 * fold_right Nat.mul 1 (map fac (seq 1 (F - 1))) = v).
    { unfold D. f_equal. rewrite <- (prod_v (F - 1) 0 : _ = Hs (F - 1)). cbn [H]. now rewrite Nat.mul_1_r. }
    rewrite Ev. cbn [copy_steps]. change (1 <=? 0) with false. cbn iota.
    change (memory_step (Z.of_nat h) sz ts f0 1 (memory_start (Z.of_nat h) sz)) with (mem_ 0).
    assert (E0 : 1 * f0 = Ds 0) by (unfold D; cbn [H]; lia). rewrite E0.
    rewrite copy_steps_eq by (tauto || lia). cbn [app]. rewrite final_code_eq by tauto.
    reflexivity.
  Qed.
End Code.
