(* The code of reduce_copyin.c behind the barriers, as a part of a round. *)
From Verif Require Import Base BarrierModel NodeModel NodeSpec SyncProofs SyncItems SyncConcat TreeProofs TreeKnow NodeCode NodeCopyin NodeLayout NodeItems NodeAsm NodeZero NodeHalf NodeProofs SingleModel SyncBank SingleSpec SingleProofs LocalModel SyncRounds LocalSync.
From Coq Require Import Permutation.
Local Ltac Zify.zify_post_hook ::= idtac.
Local Open Scope nat_scope.

Section Same.
  Context (n : nat) (A B : nat -> list micro).
  Hypothesis S : forall x, x < n -> B x = A x.
  Lemma same_race : (forall x, x < n -> okb n x false (B x)) -> race_free n A -> race_free n B.
  Proof.
    intros O RF c d j k k1 d1 s1 k2 d2 s2 Hc Hd Ne I1 I2 C. rewrite S in I1, I2 by auto.
    destruct (RF c d j k k1 d1 s1 k2 d2 s2 Hc Hd Ne I1 I2 C) as [Q|Q]; [left|right]; apply (knows_same n A B); auto.
  Qed.
  Lemma same_lock {V} (op : V -> V -> V) send K m : lock n B K op send m = lock n A K op send m.
  Proof.
    unfold lock. apply fold_left_eq. intros a j _. unfold phase. apply fold_left_eq. intros a' c I. apply in_seq in I.
    now rewrite S by lia.
  Qed.
End Same.

Definition whole_code (p : node_par) (half : bool) (c : nat) : list micro :=
  micro_code (if half then program_half p c else program p c).

Record tree_good (p : node_par) (half : bool) (K : nat) : Prop := {
  tg_pos : 0 < n_cores p;
  tg_ok : forall c, c < n_cores p -> okb (n_cores p) c false (whole_code p half c);
  tg_K : forall c, c < n_cores p -> nW (whole_code p half c) = K;
  tg_race : race_free (n_cores p) (whole_code p half);
  tg_final : forall c x d j k s1, c < n_cores p -> (0 <= x < bytes (n_counts p))%Z -> d < n_cores p -> d <> c ->
    In (k, cell p 0 x, s1) (segm (whole_code p half d) j) -> knows (whole_code p half) c K d j;
  tg_full : forall c d, c < n_cores p -> d < n_cores p -> d <> c ->
    knows (whole_code p half) c K d (clg (n_cores p) + clg (n_cores p));
  tg_lock : forall V (op : V -> V -> V) e send m x, comm_monoid op e -> (half = false -> idle_neutral p e m) ->
    (0 <= x < bytes (n_counts p))%Z ->
    lock (n_cores p) (whole_code p half) K op send m (cell p 0 x) =
    reduction op e send (n_cores p) (nth (Z.to_nat x) (order (n_counts p) (n_fracs p)) 0%Z);
  tg_ghost : half = false -> forall c k i x s, c < n_cores p -> i < product (tl (n_factors p)) ->
    (0 <= x < bytes (n_counts p))%Z -> In (MAct k (cell p i x) s) (whole_code p half c) -> i * hd 1 (n_factors p) < n_cores p
}.

Section Zero.
  Context (p : node_par).
  Hypothesis ok : copyin_ok p.
  Notation n := (n_cores p).
  Notation fs := (n_factors p).
  Notation g := (hd 1 fs).
  Notation fac := (fun s => nth s fs 1).
  Notation F := (length fs).
  Notation counts := (n_counts p).
  Notation sz := (total counts).
  Notation ts := (type_size p).
  Notation fast := (is_fast p).
  Notation prog := (iprog (aws n ts sz g fac F false g (wsP n g)) (aacts n ts sz g fac F fast g (actsP counts (n_fracs p) ts g fast)) (g + F + 2)).
  Notation len := (alen n ts sz g fac F false g (lenP n g)).
  Notation K := (cum len (g + F + 2)).

  Lemma zero_same c : c < n -> whole_code p false c = prog c.
  Proof. exact (program_items p ok c). Qed.
  Lemma whole_ok c : c < n -> okb n c false (whole_code p false c).
  Proof. intros Hc. rewrite zero_same by auto. now apply items_ok. Qed.
  Lemma len_first : cum len 1 = clg n + clg n.
  Proof. unfold cum. simpl. unfold alen, lenP. cbn [Nat.leb Nat.eqb]. lia. Qed.

  Lemma zero_good : tree_good p false K.
  Proof.
    constructor.
    - apply ok.
    - exact whole_ok.
    - intros c Hc. rewrite zero_same by auto. now apply items_K.
    - apply (same_race n prog _ zero_same whole_ok).
      exact (zero_race n counts (n_fracs p) ts g fac F fast (counts_nn p ok) (ts_pos p ok) (sz_pos p ok) (sz_ts p ok) (g_pos p ok) (fac_pos p ok)
        (ok_cores p ok) (F_pos p ok) (ok_first p ok) (n_v p ok) (whole p ok) (fast_sz p)).
    - intros c x d j k s1 Hc Hx Hd Ne I. rewrite zero_same in I by auto. rewrite cell_iaddr in I.
      apply (knows_same n prog _ _ _ _ _ zero_same whole_ok); auto. rewrite <- total_bytes in Hx.
      exact (zero_final n counts (n_fracs p) ts g fac F fast (counts_nn p ok) (ts_pos p ok) (sz_pos p ok) (sz_ts p ok) (g_pos p ok) (fac_pos p ok)
        (ok_cores p ok) (F_pos p ok) (ok_first p ok) (n_v p ok) (whole p ok) (fast_sz p) c x d j k s1 Hc Hx Hd Ne I).
    - intros c d Hc Hd Ne. rewrite <- len_first.
      apply (knows_same n prog _ _ _ _ _ zero_same whole_ok); auto.
      refine (zero_full n counts (n_fracs p) ts g fac F fast (counts_nn p ok) (ts_pos p ok) (sz_pos p ok) (sz_ts p ok) (g_pos p ok) (fac_pos p ok)
        (ok_cores p ok) (F_pos p ok) (ok_first p ok) (n_v p ok) (whole p ok) (fast_sz p)
        (fun _ _ => tt) tt (fun _ _ => tt) (fun _ => tt) _ _ _ _ c d Hc Hd Ne); intros; auto. now destruct a.
    - intros V op e send m x [As Cm Ne] Id Hx. rewrite (same_lock n prog _ zero_same). rewrite cell_iaddr.
      rewrite (zero_lock n counts (n_fracs p) ts g fac F fast (counts_nn p ok) (ts_pos p ok) (sz_pos p ok) (sz_ts p ok) (g_pos p ok) (fac_pos p ok)
        (ok_cores p ok) (F_pos p ok) (ok_first p ok) (n_v p ok) (whole p ok) (fast_sz p) op e send m As Cm Ne).
      + unfold sum, reduction, cop. f_equal. apply map_ext. intros d. unfold src.
        rewrite source_order; [now rewrite Z.sub_0_r|apply (counts_nn p ok)|].
        rewrite (lsum_total counts (n_fracs p) g (ok_fracs p ok) (g_pos p ok)), total_bytes. lia.
      + intros i y L Hi Hy. rewrite <- cell_iaddr. apply (Id eq_refl); auto.
        * rewrite <- H_product by apply (f_ne p ok). exact Hi.
        * now rewrite <- total_bytes.
      + now rewrite total_bytes.
    - intros _ c k i x s Hc Hi Hx I. rewrite zero_same in I by auto. rewrite cell_iaddr in I. rewrite <- total_bytes in Hx.
      rewrite <- H_product in Hi by apply (f_ne p ok).
      exact (zero_ghost n counts (n_fracs p) ts g fac F fast (counts_nn p ok) (ts_pos p ok) (sz_pos p ok) (sz_ts p ok) (g_pos p ok) (fac_pos p ok)
        (ok_cores p ok) (F_pos p ok) (ok_first p ok) (n_v p ok) (whole p ok) (fast_sz p) c k i x s Hc Hi Hx I).
  Qed.
End Zero.

Section Half.
  Context (p : node_par) (k : nat).
  Hypothesis ok : half_ok p.
  Notation n := (n_cores p).
  Notation fs := (1 :: repeat 2 k).
  Hypothesis factors_k : n_factors p = 1 :: repeat 2 (S k).
  Hypothesis cores_k : 2 ^ k < n <= 2 ^ S k.
  Notation h := (2 ^ k).
  Notation fac := (fun s => nth s fs 1).
  Notation F := (S k).
  Notation counts := (n_counts p).
  Notation sz := (total counts).
  Notation ts := (n_type p).
  Notation len := (alen h ts sz 1 fac F true 3 (lenH n)).
  Notation prog := (iprog (aws h ts sz 1 fac F true 3 (wsH n h)) (aacts h ts sz 1 fac F false 3 (actsH n h counts (n_fracs p) ts)) (3 + F + 2)).
  Notation K := (cum len (3 + F + 2)).

  Lemma half_same c : c < n -> whole_code p true c = prog c.
  Proof. exact (half_items p k ok factors_k cores_k c). Qed.
  Lemma wholeH_ok c : c < n -> okb n c false (whole_code p true c).
  Proof. intros Hc. rewrite half_same by auto. now apply itemsH_ok. Qed.
  Lemma lenH_first : cum len 1 = clg n + clg n.
  Proof. unfold cum. simpl. unfold alen, lenH. cbn [Nat.leb Nat.eqb]. lia. Qed.

  Lemma half_good : tree_good p true K.
  Proof.
    assert (Ce : forall x, cell p 0 x = iaddr false sz 0 x) by (intros; now rewrite cell_iaddr, (fastH_false p ok)).
    constructor.
    - lia.
    - exact wholeH_ok.
    - intros c Hc. rewrite half_same by auto. now apply itemsH_K.
    - apply (same_race n prog _ half_same wholeH_ok).
      exact (half_race n h counts (n_fracs p) ts fac F (countsH_nn p ok) (tsH_pos p ok) (szH_pos p ok) (szH_ts p ok) (facH_pos p k cores_k) (FH_pos p k cores_k)
        (proj1 cores_k) (nH_2h p k cores_k) (vH p k cores_k)).
    - intros c x d j k1 s1 Hc Hx Hd Ne I. rewrite half_same in I by auto. rewrite Ce in I.
      apply (knows_same n prog _ _ _ _ _ half_same wholeH_ok); auto. rewrite <- total_bytes in Hx.
      exact (half_final n h counts (n_fracs p) ts fac F (countsH_nn p ok) (tsH_pos p ok) (szH_pos p ok) (szH_ts p ok) (facH_pos p k cores_k) (FH_pos p k cores_k)
        (proj1 cores_k) (nH_2h p k cores_k) (vH p k cores_k) c x d j k1 s1 Hc Hx Hd Ne I).
    - intros c d Hc Hd Ne. rewrite <- lenH_first.
      apply (knows_same n prog _ _ _ _ _ half_same wholeH_ok); auto.
      refine (half_full n h counts (n_fracs p) ts fac F (countsH_nn p ok) (tsH_pos p ok) (szH_pos p ok) (szH_ts p ok) (facH_pos p k cores_k) (FH_pos p k cores_k)
        (proj1 cores_k) (nH_2h p k cores_k) (vH p k cores_k)
        (fun _ _ => tt) tt (fun _ _ => tt) (fun _ => tt) _ _ _ c d Hc Hd Ne); intros; auto. now destruct a.
    - intros V op e send m x [As Cm Ne] Id Hx. rewrite (same_lock n prog _ half_same). rewrite Ce.
      rewrite (half_lock n h counts (n_fracs p) ts fac F (countsH_nn p ok) (tsH_pos p ok) (szH_pos p ok) (szH_ts p ok) (facH_pos p k cores_k) (FH_pos p k cores_k)
        (proj1 cores_k) (nH_2h p k cores_k) (vH p k cores_k) op e send m As Cm Ne).
      + unfold sum, reduction, cop. f_equal. apply map_ext. intros d. unfold src.
        rewrite source_order; [now rewrite Z.sub_0_r|apply (countsH_nn p ok)|].
        rewrite (lsum_total counts (n_fracs p) 1 (hf_fracs p ok) Nat.lt_0_1), total_bytes. lia.
      + now rewrite total_bytes.
    - discriminate.
  Qed.
End Half.

(* ---- without the two barriers at the beginning ---- *)
Lemma okb_rest n own l : forall b q, okb n own b l -> okb n own b (l ++ q) -> okb n own false q.
Proof.
  induction l as [|[e|e|k d s] l IH]; simpl; intros b q O1 O2.
  - now subst.
  - apply (IH true); [apply O1|apply O2].
  - apply (IH false); [apply O1|apply O2].
  - apply (IH false); [apply O1|apply O2].
Qed.

Definition tree_code (p : node_par) (half : bool) (c : nat) : list micro := micro_code (tree p half c).

Section Rest.
  Context (p : node_par) (half : bool) (K : nat).
  Hypothesis tg : tree_good p half K.
  Notation n := (n_cores p).
  Notation KA := (clg n + clg n).
  Definition two_bars (c : nat) : list micro := full_bar n c ++ full_bar n c.
  Definition RT : nat := K - KA.

  Lemma whole_split c : whole_code p half c = two_bars c ++ tree_code p half c.
  Proof.
    unfold whole_code, two_bars, tree_code, full_bar, tree.
    destruct half; unfold program, program_half; rewrite !micro_app, <- ?app_assoc; reflexivity.
  Qed.
  Lemma two_ok c : c < n -> okb n c false (two_bars c).
  Proof. intros Hc. apply okb_app; apply full_bar_ok; auto; apply tg. Qed.
  Lemma two_K c : c < n -> nW (two_bars c) = KA.
  Proof. intros Hc. unfold two_bars. rewrite nW_app, full_bar_K by (auto; apply tg). reflexivity. Qed.
  Lemma two_acts c k d s : ~ In (MAct k d s) (two_bars c).
  Proof. intros I. apply in_app_or in I. destruct I as [I|I]; revert I; apply full_bar_acts. Qed.

  Notation AB := (fun c => two_bars c ++ tree_code p half c).
  Lemma AB_ok c : c < n -> okb n c false (two_bars c ++ tree_code p half c).
  Proof. intros Hc. rewrite <- whole_split. now apply tg. Qed.
  Lemma tree_ok c : c < n -> okb n c false (tree_code p half c).
  Proof. intros Hc. apply (okb_rest n c (two_bars c) false); [now apply two_ok|now apply AB_ok]. Qed.
  Lemma tree_K' c : c < n -> K = KA + nW (tree_code p half c).
  Proof. intros Hc. rewrite <- (tg_K p half K tg c Hc), whole_split, nW_app, two_K by auto. reflexivity. Qed.
  Lemma tree_K c : c < n -> nW (tree_code p half c) = RT.
  Proof. intros Hc. unfold RT. rewrite (tree_K' c Hc). lia. Qed.
  Lemma K_split : K = KA + RT.
  Proof. pose proof (tree_K' 0 (tg_pos p half K tg)). unfold RT. lia. Qed.

  Lemma AB_knows d j c m : d < n -> knows (whole_code p half) d j c m -> knows AB d j c m.
  Proof. intros Hd Q. apply (knows_same n (whole_code p half)); auto; [intros; now rewrite whole_split|apply AB_ok]. Qed.
  Lemma rest_knows d j c m : d < n -> KA <= m -> knows (whole_code p half) d j c m ->
    knows (tree_code p half) d (j - KA) c (m - KA).
  Proof.
    intros Hd Hm Q. apply AB_knows in Q; auto.
    exact (knows_rest n KA two_bars (tree_code p half) two_K tree_ok AB_ok d j c m Q Hd Hm).
  Qed.

  Lemma tree_race : race_free n (tree_code p half).
  Proof.
    apply (race_rest n KA two_bars (tree_code p half) two_K tree_ok AB_ok).
    apply (same_race n (whole_code p half)); [intros; now rewrite whole_split|exact AB_ok|apply tg].
  Qed.

  Lemma tree_final c x d j k s1 : c < n -> (0 <= x < bytes (n_counts p))%Z -> d < n -> d <> c ->
    In (k, cell p 0 x, s1) (segm (tree_code p half d) j) -> knows (tree_code p half) c RT d j.
  Proof.
    intros Hc Hx Hd Ne I.
    assert (Q : knows (whole_code p half) c K d (KA + j)).
    { apply (tg_final p half K tg c x d (KA + j) k s1); auto. rewrite whole_split. apply in_segm_app. right.
      rewrite two_K by auto. replace (KA + j - KA) with j by lia. split; [lia|auto]. }
    apply rest_knows in Q; auto; [|lia]. now replace (KA + j - KA) with j in Q by lia.
  Qed.

  Lemma tree_full c d : c < n -> d < n -> d <> c -> knows (tree_code p half) c RT d 0.
  Proof.
    intros Hc Hd Ne. pose proof (tg_full p half K tg c d Hc Hd Ne) as Q. apply rest_knows in Q; auto.
    now rewrite Nat.sub_diag in Q.
  Qed.

  Lemma tree_lock V (op : V -> V -> V) e send m x : comm_monoid op e -> (half = false -> idle_neutral p e m) ->
    (0 <= x < bytes (n_counts p))%Z ->
    lock n (tree_code p half) RT op send m (cell p 0 x) =
    reduction op e send n (nth (Z.to_nat x) (order (n_counts p) (n_fracs p)) 0%Z).
  Proof.
    intros Cm Id Hx. rewrite <- (tg_lock p half K tg V op e send m x Cm Id Hx).
    rewrite (same_lock n AB (whole_code p half)) by (intros; apply whole_split).
    rewrite K_split. rewrite (lock_app n op send two_bars (tree_code p half) KA RT m two_K).
    - apply lock_eqm. intros y. symmetry. apply lock_other. intros c k s _. apply two_acts.
    - apply race_calm. apply (same_race n (whole_code p half)); [intros; now rewrite whole_split|exact AB_ok|apply tg].
  Qed.

  Lemma tree_ghost c k i x s : half = false -> c < n -> i < product (tl (n_factors p)) ->
    (0 <= x < bytes (n_counts p))%Z -> In (MAct k (cell p i x) s) (tree_code p half c) -> i * hd 1 (n_factors p) < n.
  Proof.
    intros Hh Hc Hi Hx I. apply (tg_ghost p half K tg Hh c k i x s); auto. rewrite whole_split. apply in_or_app. auto.
  Qed.
End Rest.
