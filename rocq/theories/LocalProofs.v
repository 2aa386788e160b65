(* Allreduce, Reduce and Bcast on one node. *)
From Verif Require Import Base BarrierModel NodeModel NodeSpec SyncProofs SyncItems SyncConcat NodeCode NodeProofs SingleModel SyncBank SingleSpec SingleProofs LocalModel LocalSpec SyncRounds LocalSync LocalPlace LocalTree.
From Coq Require Import Permutation.
Local Ltac Zify.zify_post_hook ::= idtac.
Local Open Scope nat_scope.

Definition off_of (p : node_par) : Z := if is_fast p then OFFSET_FAST else 0%Z.
Lemma cell_off p y : cell p 0 y = (y + off_of p)%Z.
Proof. unfold cell, off_of. rewrite small_fast. unfold OFFSET_FAST. change (Z.of_nat 0) with 0%Z. destruct (small p); lia. Qed.

Lemma local_round p half root first alt k c :
  local_code p half root first (bank alt k) k c =
  P (n_cores p) (total (n_counts p)) first alt (is_fast p) (off_of p) (gets root)
    (fun k c => work_part p half root (bank alt k) (Z.of_nat k * total (n_counts p)) c) k c.
Proof. unfold local_code, P, lead, full_bar, copy_out, out, off_of. reflexivity. Qed.

Lemma total_one z : total [z] = z.
Proof. rewrite total_bytes. unfold bytes. simpl. lia. Qed.

Lemma good p half : local_ok p half -> exists K, tree_good p half K.
Proof.
  intros (_ & O). destruct half.
  - destruct (hf_factors p O) as (k & Ek & Nk). eexists. exact (half_good p k O Ek Nk).
  - eexists. exact (zero_good p O).
Qed.

Lemma order_id p half y : local_ok p half -> (0 <= y < bytes (n_counts p))%Z ->
  Z.of_nat (Z.to_nat y) = y /\ nth (Z.to_nat y) (order (n_counts p) (n_fracs p)) 0%Z = y.
Proof.
  intros ((z & E) & O) Hy. split; [lia|].
  assert (Pm : Permutation (n_fracs p) (seq 0 (length (n_counts p)))) by (destruct half; apply O).
  rewrite E in *. simpl in Pm. apply Permutation_sym, Permutation_length_1_inv in Pm. rewrite Pm.
  unfold order, part. cbn [flat_map firstn nth]. rewrite app_nil_r. unfold bytes in *. cbn [fold_right] in *.
  rewrite (nth_indep _ 0%Z ((fun i => 0 + Z.of_nat i)%Z 0)) by (rewrite map_length, seq_length; lia).
  rewrite (map_nth (fun i => 0 + Z.of_nat i)%Z). rewrite seq_nth by lia. lia.
Qed.

(* ---- Allreduce and Reduce ---- *)
Section Tree.
  Context (p : node_par) (half : bool) (root : Z) (first alt : bool).
  Hypothesis lok : local_ok p half.
  Hypothesis not_bcast : (root <=? -10)%Z = false.
  Hypothesis sep : separated first alt.
  Notation n := (n_cores p).
  Notation z := (total (n_counts p)).
  Notation W := (fun k c => work_part p half root (bank alt k) (Z.of_nat k * z) c).
  Context (K : nat).
  Hypothesis tg : tree_good p half K.
  Notation RW := (RT p K).

  Lemma W_eq k c : W k c = map (place (bank alt k) (is_fast p) (Z.of_nat k * z)) (tree_code p half c).
  Proof. unfold work_part. rewrite not_bcast. reflexivity. Qed.
  Lemma W_ok k c : c < n -> okb n c false (W k c).
  Proof. intros Hc. cbv beta; rewrite W_eq. apply place_ok. now apply (tree_ok p half K tg). Qed.
  Lemma W_R k c : c < n -> nW (W k c) = RW.
  Proof. intros Hc. cbv beta; rewrite W_eq, place_nW. now apply tree_K. Qed.
  Lemma W_race k : race_free n (W k).
  Proof.
    apply (same_race n (fun c => map (place (bank alt k) (is_fast p) (Z.of_nat k * z)) (tree_code p half c)));
      [intros; apply W_eq|intros; now apply W_ok|].
    apply place_race; [apply bank_2|]. exact (tree_race p half K tg).
  Qed.
  Lemma W_knows k d v c m : knows (tree_code p half) d v c m -> knows (W k) d v c m.
  Proof. apply knows_ext. intros x. cbv beta; now rewrite W_eq, place_waits. Qed.
  Lemma W_cells k c k1 d s : c < n -> In (MAct k1 d s) (W k c) ->
    inbank alt k d /\ (forall a, s = Shm a -> inbank alt k a).
  Proof.
    intros Hc I. cbv beta in I; rewrite W_eq in I. apply place_acts in I. destruct I as (a & s' & -> & I & ->).
    split; [unfold inbank; eauto|]. intros x E. destruct s'; [|discriminate]. injection E as <-. unfold inbank. eauto.
  Qed.
  Lemma W_out k c d j k1 i s1 : c < n -> d < n -> c <> d -> (0 <= i < z)%Z -> gets root d = true ->
    In (k1, shm_cell (bank alt k) (is_fast p) (i + off_of p), s1) (segm (W k c) j) -> knows (W k) d RW c j.
  Proof.
    intros Hc Hd Ne Hi _ I. apply W_knows. cbv beta in I; rewrite W_eq, place_segm in I.
    apply in_map_iff in I. destruct I as ([[k2 d2] s2] & E & I). unfold pla in E. simpl in E. injection E as -> E _.
    apply shm_cell_inj in E; try apply bank_2. destruct E as (_ & _ & ->). rewrite <- cell_off in I.
    apply (tree_final p half K tg d i c j k1 s2); auto. now rewrite <- total_bytes.
  Qed.
  Lemma W_sep : first = true \/ (alt = true /\ forall k c d, c < n -> d < n -> c <> d -> knows (W k) d RW c 0).
  Proof.
    destruct sep as [F|A]; [now left|right]. split; auto. intros k c d Hc Hd Ne. apply W_knows.
    now apply (tree_full p half K tg).
  Qed.

  Hypothesis few : few_waits p half root first.
  Lemma few_R : (Z.of_nat (2 * R n RW first + 1) < 2 ^ 31)%Z.
  Proof.
    unfold few_waits in few. change (waits_in ?l) with (nW l) in few.
    change (local_code p half root first 0 0 0) with (local_code p half root first (bank false 0) 0 0) in few.
    rewrite local_round in few.
    assert (E : nW (P n z first false (is_fast p) (off_of p) (gets root)
        (fun k c => work_part p half root (bank false k) (Z.of_nat k * z) c) 0 0) = R n RW first).
    { unfold P, R. rewrite !nW_app, out_K.
      assert (L : nW (lead n first 0) = KL n first).
      { unfold lead, KL. destruct first; [apply full_bar_K; apply tg|reflexivity]. }
      rewrite L.
      assert (Q : nW (work_part p half root (bank false 0) (Z.of_nat 0 * z) 0) = RW).
      { unfold work_part. rewrite not_bcast, place_nW. apply (tree_K p half K tg). apply tg. }
      rewrite Q. lia. }
    rewrite E in few. exact few.
  Qed.

  Context {V : Type} (op : V -> V -> V) (e : V) (send : nat -> Z -> V) (c0 : nat -> Z) (m0 : Z -> V) (times : nat).
  Hypothesis cm : comm_monoid op e.
  Hypothesis id : idle p half e m0.

  Notation run_ := (local_run p half root first alt).
  Notation Pk := (P n z first alt (is_fast p) (off_of p) (gets root) W).

  Theorem tree_received s c k y : breach op send n (bstart (run_ times) c0 m0) s -> c < n -> k < times ->
    returned (fun t => run_ t c) times s c k -> gets root c = true -> (0 <= y < z)%Z ->
    bmem s (recv_cell n z k c y) = reduction op e (sent send z k) n y.
  Proof.
    intros Rs Hc Hk Rt G Hy.
    rewrite (local_value n z RW first alt (is_fast p) (off_of p) (gets root) W (tg_pos p half K tg)
      W_ok W_R W_race W_cells W_out W_sep few_R op send c0 m0 times s c k y Rs Hc Hk Rt G Hy).
    rewrite (same_lock n (fun c => map (place (bank alt k) (is_fast p) (Z.of_nat k * z)) (tree_code p half c)) (W k))
      by (intros; apply W_eq).
    rewrite (place_lock (bank alt k) (is_fast p) (Z.of_nat k * z) (bank_2 alt k) n (tree_code p half) op send RW).
    rewrite <- cell_off. rewrite total_bytes in Hy.
    rewrite (tree_lock p half K tg V op e _ _ y cm).
    - now rewrite (proj2 (order_id p half y lok Hy)).
    - intros Hh i x L Hi Hx.
      rewrite (series_kept n z RW first alt (is_fast p) (off_of p) (gets root) W (tg_pos p half K tg)
        W_ok W_R W_race W_cells W_out W_sep few_R op send k); [| |apply bank_2].
      + apply (id Hh (bank alt k) (bank_2 alt k)); auto.
      + intros j d k1 s1 Hd I. cbv beta in I; rewrite W_eq in I. apply place_acts in I. destruct I as (a & s' & E & I & _).
        apply shm_cell_inj in E; try apply bank_2. destruct E as (_ & _ & <-).
        pose proof (tree_ghost p half K tg d k1 i x s' Hh Hd Hi Hx I). lia.
    - exact Hy.
  Qed.

  Theorem tree_kept s c k y : breach op send n (bstart (run_ times) c0 m0) s -> c < n ->
    gets root c = false -> (0 <= y < z)%Z ->
    bmem s (recv_cell n z k c y) = m0 (recv_cell n z k c y).
  Proof.
    exact (local_kept n z RW first alt (is_fast p) (off_of p) (gets root) W (tg_pos p half K tg)
      W_ok W_R W_race W_cells W_out W_sep few_R op send c0 m0 times s c k y).
  Qed.

  Theorem tree_progress s : breach op send n (bstart (run_ times) c0 m0) s ->
    bfinished n s \/ exists c s', c < n /\ bstep op send s c = Some s'.
  Proof.
    exact (local_progress n z RW first alt (is_fast p) (off_of p) (gets root) W (tg_pos p half K tg)
      W_ok W_R W_race W_cells W_out W_sep few_R op send c0 m0 times s).
  Qed.
End Tree.

(* ---- Bcast ---- *)
Section Bcast.
  Context (p : node_par) (half : bool) (r : nat) (first alt : bool).
  Notation n := (n_cores p).
  Hypothesis Hr : r < n.
  Hypothesis n_small : (Z.of_nat n < 2 ^ 31)%Z.
  Hypothesis sep : separated first alt.
  Notation z := (total (n_counts p)).
  Notation root := (-10 - Z.of_nat r)%Z.
  Notation W := (fun k c => work_part p half root (bank alt k) (Z.of_nat k * z) c).
  Let n_pos : 0 < n. Proof. lia. Qed.

  Lemma B_eq k c : W k c = map (place (bank alt k) false (Z.of_nat k * z)) (bc n r z c).
  Proof.
    unfold work_part. rewrite (proj2 (Z.leb_le _ _)) by lia. f_equal. unfold share, bc, mv, full_bar. rewrite micro_app. f_equal.
    rewrite (proj2 (Z.eqb_neq (Z.of_nat c) root)) by lia. cbn [orb].
    destruct (Nat.eqb_spec c r) as [->|Ne].
    - rewrite (proj2 (Z.eqb_eq _ _)) by lia. reflexivity.
    - rewrite (proj2 (Z.eqb_neq _ _)) by lia. reflexivity.
  Qed.
  Lemma B_ok k c : c < n -> okb n c false (W k c).
  Proof. intros Hc. cbv beta; rewrite B_eq. apply place_ok. now apply bc_ok. Qed.
  Lemma B_R k c : c < n -> nW (W k c) = clg n.
  Proof. intros Hc. cbv beta; rewrite B_eq, place_nW. now apply bc_K. Qed.
  Lemma B_race k : race_free n (W k).
  Proof.
    apply (same_race n (fun c => map (place (bank alt k) false (Z.of_nat k * z)) (bc n r z c)));
      [intros; apply B_eq|intros; now apply B_ok|].
    apply place_race; [apply bank_2|]. apply bc_race.
  Qed.
  Lemma B_knows k d v c m : knows (bc n r z) d v c m -> knows (W k) d v c m.
  Proof. apply knows_ext. intros x. cbv beta; now rewrite B_eq, place_waits. Qed.
  Lemma B_cells k c k1 d s : c < n -> In (MAct k1 d s) (W k c) ->
    inbank alt k d /\ (forall a, s = Shm a -> inbank alt k a).
  Proof.
    intros Hc I. cbv beta in I; rewrite B_eq in I. apply place_acts in I. destruct I as (a & s' & -> & I & ->).
    split; [unfold inbank; eauto|]. intros x E. destruct s'; [|discriminate]. injection E as <-. unfold inbank. eauto.
  Qed.
  Lemma B_out k c d j k1 i s1 : c < n -> d < n -> c <> d -> (0 <= i < z)%Z -> gets root d = true ->
    In (k1, shm_cell (bank alt k) (is_fast p) (i + off_of p), s1) (segm (W k c) j) -> knows (W k) d (clg n) c j.
  Proof.
    intros Hc Hd Ne Hi _ I. apply B_knows. cbv beta in I; rewrite B_eq, place_segm in I.
    apply in_map_iff in I. destruct I as (a & _ & I). apply (bc_segm n r z Hr) in I. subst j. now apply bc_knows.
  Qed.
  Lemma B_sep : first = true \/ (alt = true /\ forall k c d, c < n -> d < n -> c <> d -> knows (W k) d (clg n) c 0).
  Proof.
    destruct sep as [F|A]; [now left|right]. split; auto. intros k c d Hc Hd Ne. apply B_knows. now apply bc_knows.
  Qed.
  Lemma clg_31 : clg n <= 31.
  Proof.
    unfold clg. destruct (le_lt_dec n 1) as [L|L].
    - rewrite Nat.log2_up_eqn0 by auto. lia.
    - apply Nat.log2_up_le_pow2; [lia|]. apply Nat2Z.inj_le. rewrite Nat2Z.inj_pow. lia.
  Qed.
  Lemma B_few : (Z.of_nat (2 * R n (clg n) first + 1) < 2 ^ 31)%Z.
  Proof. unfold R, KL. pose proof clg_31. destruct first; lia. Qed.

  Context {V : Type} (op : V -> V -> V) (send : nat -> Z -> V) (c0 : nat -> Z) (m0 : Z -> V) (times : nat).
  Notation run_ := (local_run p half root first alt).

  Lemma gets_bcast c : gets root c = negb (c =? r).
  Proof.
    unfold gets. rewrite (proj2 (Z.eqb_neq root (-1))), (proj2 (Z.ltb_lt root 0)), (proj2 (Z.eqb_neq root _)) by lia.
    cbn [orb andb]. rewrite orb_false_r. f_equal.
    destruct (Nat.eqb_spec c r), (Z.eqb_spec (-10 - root) (Z.of_nat c)); auto; lia.
  Qed.

  Lemma bcast_lock s c k y : breach op send n (bstart (run_ times) c0 m0) s -> c < n -> c <> r -> k < times ->
    returned (fun t => run_ t c) times s c k -> (0 <= y < z)%Z ->
    bmem s (recv_cell n z k c y) =
    lock n (W k) (clg n) op send
      (lock n (series (P n z first alt (is_fast p) (off_of p) (gets root) W) k) (k * R n (clg n) first) op send m0)
      (shm_cell (bank alt k) (is_fast p) (y + off_of p)).
  Proof.
    intros Rs Hc Ne Hk Rt Hy.
    apply (local_value n z (clg n) first alt (is_fast p) (off_of p) (gets root) W n_pos
      B_ok B_R B_race B_cells B_out B_sep B_few op send c0 m0 times s c k y Rs Hc Hk Rt); auto.
    rewrite gets_bcast. apply negb_true_iff. now apply Nat.eqb_neq.
  Qed.

  Theorem bcast_received s c k y : is_fast p = false ->
    breach op send n (bstart (run_ times) c0 m0) s -> c < n -> c <> r -> k < times ->
    returned (fun t => run_ t c) times s c k -> (0 <= y < z)%Z ->
    bmem s (recv_cell n z k c y) = sent send z k r y.
  Proof.
    intros Fa Rs Hc Ne Hk Rt Hy. rewrite bcast_lock with (c := c) by auto.
    rewrite (same_lock n (fun c => map (place (bank alt k) false (Z.of_nat k * z)) (bc n r z c)) (W k)) by (intros; apply B_eq).
    unfold off_of. rewrite Fa. rewrite Z.add_0_r.
    rewrite (place_lock (bank alt k) false (Z.of_nat k * z) (bank_2 alt k) n (bc n r z) op send (clg n)).
    now rewrite bc_lock.
  Qed.

  (* the cache line nobody has written to *)
  Theorem bcast_fast_received s c k y : is_fast p = true ->
    breach op send n (bstart (run_ times) c0 m0) s -> c < n -> c <> r -> k < times ->
    returned (fun t => run_ t c) times s c k -> (0 <= y < z)%Z ->
    bmem s (recv_cell n z k c y) = m0 (shm_cell (bank alt k) true (y + 8)).
  Proof.
    intros Fa Rs Hc Ne Hk Rt Hy. rewrite bcast_lock with (c := c) by auto.
    assert (NW : forall j d k1 s1, d < n -> ~ In (MAct k1 (shm_cell (bank alt k) true (y + 8)) s1) (W j d)).
    { intros j d k1 s1 Hd I. cbv beta in I; rewrite B_eq in I. apply place_acts in I. destruct I as (a & s' & E & _).
      apply shm_cell_inj in E; try apply bank_2. destruct E as (_ & E & _). discriminate. }
    replace (shm_cell (bank alt k) (is_fast p) (y + off_of p)) with (shm_cell (bank alt k) true (y + 8)).
    2:{ unfold off_of. rewrite Fa. reflexivity. }
    rewrite lock_other by (intros; now apply NW).
    apply (series_kept n z (clg n) first alt (is_fast p) (off_of p) (gets root) W n_pos
      B_ok B_R B_race B_cells B_out B_sep B_few op send k); [|apply bank_2].
    intros j d k1 s1 Hd. now apply NW.
  Qed.

  Theorem bcast_root_kept s k y : breach op send n (bstart (run_ times) c0 m0) s -> (0 <= y < z)%Z ->
    bmem s (recv_cell n z k r y) = m0 (recv_cell n z k r y).
  Proof.
    intros Rs Hy.
    apply (local_kept n z (clg n) first alt (is_fast p) (off_of p) (gets root) W n_pos
      B_ok B_R B_race B_cells B_out B_sep B_few op send c0 m0 times s r k y Rs Hr); auto.
    rewrite gets_bcast, Nat.eqb_refl. reflexivity.
  Qed.

  Theorem bcast_progress s : breach op send n (bstart (run_ times) c0 m0) s ->
    bfinished n s \/ exists c s', c < n /\ bstep op send s c = Some s'.
  Proof.
    exact (local_progress n z (clg n) first alt (is_fast p) (off_of p) (gets root) W n_pos
      B_ok B_R B_race B_cells B_out B_sep B_few op send c0 m0 times s).
  Qed.
End Bcast.
