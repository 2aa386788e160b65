From Verif Require Import Base SchedModel SchedSpec SchedProofs RecursiveModel RecursiveArith RecursiveProofs MatchProofs CyclicModel CyclicSpec.
Local Ltac Zify.zify_post_hook ::= idtac.

(* ----- arithmetic modulo n ----- *)
Lemma back_forth n q t k : q < n -> t < n -> k <= n -> ((t + n - k) mod n = q <-> (q + k) mod n = t).
Proof.
  intros Hq Ht Hk. split; intros <-.
  - destruct (le_lt_dec k t).
    + replace (t + n - k) with ((t - k) + 1 * n) by lia. rewrite Nat.mod_add by lia.
      rewrite (Nat.mod_small (t - k)) by lia. replace (t - k + k) with t by lia. apply Nat.mod_small; assumption.
    + rewrite (Nat.mod_small (t + n - k)) by lia. replace (t + n - k + k) with (t + 1 * n) by lia.
      rewrite Nat.mod_add by lia. apply Nat.mod_small; assumption.
  - destruct (le_lt_dec n (q + k)).
    + replace (q + k) with ((q + k - n) + 1 * n) at 1 by lia. 
      destruct (Nat.eq_dec (q + k) (2 * n)) as [E|E]; [exfalso; lia|].
      rewrite Nat.mod_add, (Nat.mod_small (q + k - n)) by lia.
      replace (q + k - n + n - k) with q by lia. apply Nat.mod_small; assumption.
    + rewrite (Nat.mod_small (q + k)) by lia. replace (q + k + n - k) with (q + 1 * n) by lia.
      rewrite Nat.mod_add by lia. apply Nat.mod_small; assumption.
Qed.

Lemma shift_inj n q k1 k2 : k1 < n -> k2 < n -> (q + k1) mod n = (q + k2) mod n -> k1 = k2.
Proof.
  intros H1 H2 E. rewrite <- (Nat.add_mod_idemp_l q k1), <- (Nat.add_mod_idemp_l q k2) in E by lia.
  assert (Hr : q mod n < n) by (apply Nat.mod_upper_bound; lia). revert E Hr. generalize (q mod n). intros r E Hr.
  assert (F : forall k, k < n -> (r + k) mod n = if r + k <? n then r + k else r + k - n).
  { intros k Hk. destruct (Nat.ltb_spec (r + k) n); [apply Nat.mod_small; assumption|].
    symmetry. apply Nat.mod_unique with 1; lia. }
  rewrite !F in E by assumption. destruct (Nat.ltb_spec (r + k1) n), (Nat.ltb_spec (r + k2) n); lia.
Qed.

Lemma shift_self n q k : 0 < k < n -> q < n -> (q + k) mod n <> q.
Proof.
  intros Hk Hq E. assert (X : (q + k) mod n = (q + 0) mod n) by (rewrite Nat.add_0_r, (Nat.mod_small q); assumption).
  apply shift_inj in X; lia.
Qed.

Lemma zrem_back n t k : 0 < n -> k <= n ->
  Z.rem (Z.of_nat t + Z.of_nat n - Z.of_nat k) (Z.of_nat n) = Z.of_nat ((t + n - k) mod n).
Proof.
  intros Hn Hk. rewrite Nat2Z.inj_mod, Nat2Z.inj_sub, Nat2Z.inj_add by lia.
  apply Z.rem_mod_nonneg; lia.
Qed.

(* ----- one stage ----- *)
Section Stage.
  Context (n g p NL : nat) (Hg : 0 < g) (Hp : 0 < p) (Hlow : g * p < NL) (Hup : NL <= g * (p + 1)) (HN : NL <= n).
  Context (blk : nat -> block) (Hblk : forall q, blk q = Block NL (cy_line n NL g g p q)).

  (* number of lines exchanged at distance (i+1) g *)
  Definition part (i : nat) : nat := if i =? p - 1 then NL - p * g else g.

  Lemma part_le i : part i <= g.
  Proof. unfold part. destruct (i =? p - 1); lia. Qed.
  Lemma part_fit i : i < p -> (i + 1) * g + part i <= NL.
  Proof.
    intros Hi. unfold part. destruct (Nat.eqb_spec i (p - 1)) as [->|D].
    - replace (p - 1 + 1) with p by lia. lia.
    - assert ((i + 1) * g + g <= p * g); [|lia]. replace ((i + 1) * g + g) with ((i + 2) * g) by lia.
      apply Nat.mul_le_mono_r. lia.
  Qed.
  Lemma dist_lt i : i < p -> (i + 1) * g < n.
  Proof.
    intros Hi. assert ((i + 1) * g <= p * g) by (apply Nat.mul_le_mono_r; lia). lia.
  Qed.

  Lemma line_dec l : g <= l < NL -> exists i, i < p /\ (i + 1) * g <= l < (i + 1) * g + part i /\ l / g = i + 1.
  Proof.
    intros Hl. assert (D := Nat.div_mod l g ltac:(lia)). assert (M := Nat.mod_upper_bound l g ltac:(lia)).
    set (j := l / g) in *. set (r := l mod g) in *.
    assert (J1 : 1 <= j) by (destruct j; lia).
    assert (J2 : j <= p).
    { destruct (le_lt_dec j p); [assumption|]. exfalso.
      assert (g * (p + 1) <= g * j) by (apply Nat.mul_le_mono_l; lia). lia. }
    exists (j - 1). replace (j - 1 + 1) with j by lia. split; [lia|]. split; [|reflexivity].
    rewrite (Nat.mul_comm j g). split; [lia|]. unfold part.
    destruct (Nat.eqb_spec (j - 1) (p - 1)); [|lia]. assert (j = p) by lia. subst j. lia.
  Qed.
  Lemma line_part i l : i < p -> (i + 1) * g <= l < (i + 1) * g + part i -> l / g = i + 1.
  Proof.
    intros Hi Hl. assert (X := part_le i). 
    replace l with ((i + 1) * g + (l - (i + 1) * g)) by lia. apply node_div; lia.
  Qed.

  Lemma sends_line q l :
    sendto (cy_line n NL g g p q l) =
      if l <? part 0 then
      map (fun i => (zn ((q + n - (i + 1) * g) mod n), l)) (seq 0 (if NL - p * g <=? l then p - 1 else p))
      else [].
  Proof.
    unfold cy_line.
    assert (E : (if NL - g <? g then NL - g else g) = part 0).
    { unfold part. destruct (Nat.ltb_spec (NL - g) g), (Nat.eqb_spec 0 (p - 1)).
      - assert (p = 1) by lia. subst p. lia.
      - exfalso. assert (2 * g <= p * g) by (apply Nat.mul_le_mono_r; lia). lia.
      - assert (p = 1) by lia. subst p. lia.
      - reflexivity. }
    rewrite E. destruct (Nat.ltb_spec l (part 0)); [|destruct (g <=? l); reflexivity].
    cbn [sendto]. apply map_ext_in. intros i Hi. apply in_seq in Hi.
    assert (Hi' : i < p) by (destruct (NL - p * g <=? l); lia).
    assert (D := dist_lt i Hi'). f_equal.
    replace ((Z.of_nat i + 1) * Z.of_nat g)%Z with (Z.of_nat ((i + 1) * g)) by lia.
    apply zrem_back; lia.
  Qed.
  Lemma recv_line q l : l < NL ->
    recvfrom (cy_line n NL g g p q l) = if g <=? l then [(zn ((q + l / g * g) mod n), l mod g)] else [].
  Proof.
    intros Hl. unfold cy_line.
    destruct (Nat.ltb_spec l (if NL - g <? g then NL - g else g)) as [H|H]; [|].
    - cbn [recvfrom]. destruct (Nat.leb_spec g l); [|reflexivity]. exfalso.
      destruct (NL - g <? g) eqn:E; [apply Nat.ltb_lt in E|]; lia.
    - destruct (g <=? l); [|reflexivity]. cbn [recvfrom]. unfold zn.
      replace (q + n + l / g * g) with (q + l / g * g + 1 * n) by lia. rewrite Nat.mod_add by lia. reflexivity.
  Qed.

  Lemma part0_part i l : i < p -> (l < part 0 /\ i < (if NL - p * g <=? l then p - 1 else p)) <-> l < part i.
  Proof.
    intros Hi. unfold part.
    destruct (Nat.leb_spec (NL - p * g) l), (Nat.eqb_spec 0 (p - 1)), (Nat.eqb_spec i (p - 1)); lia.
  Qed.

  Lemma cy_sent t q i : t < n -> q < n -> i < p -> (q + (i + 1) * g) mod n = t ->
    sent_lines blk t q = seq 0 (part i).
  Proof.
    intros Ht Hq Hi E.
    assert (Di := dist_lt i Hi). assert (Fi := part_fit i Hi).
    assert (Tgt : forall j, j < p -> (t + n - (j + 1) * g) mod n = q <-> j = i).
    { intros j Hj. assert (Dj := dist_lt j Hj). rewrite (back_forth n q t) by lia. split; [|intros ->; assumption].
      rewrite <- E. intros X. apply shift_inj in X; [|assumption|assumption].
      apply Nat.mul_cancel_r in X; lia. }
    apply sent_lines_seq; rewrite ?Hblk; cbn [num_lines lines].
    - lia.
    - intros l Hl Hr. rewrite sends_line. apply proj2, (part0_part i l Hi) in Hr as (A & B).
      apply Nat.ltb_lt in A as A'. rewrite A'.
      assert (S : (if NL - p * g <=? l then p - 1 else p) <= p) by (destruct (_ <=? _); lia).
      apply filter_dest.
      + intros a c Ha Hc X. 
        assert (Da := dist_lt a ltac:(lia)). assert (Dc := dist_lt c ltac:(lia)).
        remember ((t + n - (c + 1) * g) mod n) as v eqn:Ev. symmetry in Ev.
        assert (Hv : v < n) by (rewrite <- Ev; apply Nat.mod_upper_bound; lia).
        apply back_forth in X; [|lia..]. apply back_forth in Ev; [|lia..].
        rewrite <- X in Ev. apply shift_inj in Ev; [|assumption|assumption]. apply Nat.mul_cancel_r in Ev; lia.
      + exists i. split; [assumption|]. apply Tgt; auto.
    - intros l Hl Hr. rewrite sends_line. destruct (Nat.ltb_spec l (part 0)) as [A|A]; [|reflexivity].
      apply filter_dest_none. intros j Hj X.
      assert (S : (if NL - p * g <=? l then p - 1 else p) <= p) by (destruct (_ <=? _); lia).
      apply Tgt in X; [|lia]. subst j. apply Hr. split; [lia|].
      assert (Y : l < part i) by (apply part0_part; auto). lia.
  Qed.
  Lemma cy_sent_none t q : t < n -> q < n -> (forall i, i < p -> (q + (i + 1) * g) mod n <> t) ->
    sent_lines blk t q = [].
  Proof.
    intros Ht Hq H. apply sent_lines_nil. rewrite Hblk; cbn [num_lines lines]. intros l Hl.
    rewrite sends_line. destruct (l <? part 0); [|reflexivity].
    apply filter_dest_none. intros j Hj X.
    assert (S : (if NL - p * g <=? l then p - 1 else p) <= p) by (destruct (_ <=? _); lia).
    assert (D := dist_lt j ltac:(lia)). apply back_forth in X; [|lia..]. apply (H j); [lia|assumption].
  Qed.

  Lemma cy_recv_iff q t l : q < n -> l < NL ->
    existsb (is_node t) (recvfrom (lines (blk q) l)) = true <->
    exists i, i < p /\ (q + (i + 1) * g) mod n = t /\ (i + 1) * g <= l < (i + 1) * g + part i.
  Proof.
    intros Hq Hl. rewrite Hblk; cbn [lines]. rewrite recv_line by assumption. split.
    - destruct (Nat.leb_spec g l) as [A|A]; [|discriminate]. cbn [existsb]. rewrite is_node_zn, orb_false_r.
      intros E. apply Nat.eqb_eq in E. destruct (line_dec l ltac:(lia)) as (i & Hi & Hr & D).
      exists i. split; [assumption|]. rewrite D in E. split; assumption.
    - intros (i & Hi & E & Hr). assert (D := line_part i l Hi Hr).
      assert (A : g <= l).
      { assert (1 * g <= (i + 1) * g) by (apply Nat.mul_le_mono_r; lia). lia. }
      apply Nat.leb_le in A. rewrite A. cbn [existsb]. rewrite is_node_zn, D, orb_false_r. apply Nat.eqb_eq. assumption.
  Qed.
  Lemma cy_recv q t i : q < n -> i < p -> (q + (i + 1) * g) mod n = t ->
    recv_lines blk q t = seq ((i + 1) * g) (part i).
  Proof.
    intros Hq Hi E. assert (F := part_fit i Hi). apply recv_lines_seq; rewrite ?Hblk; cbn [num_lines]; [assumption|].
    intros l Hl. rewrite <- (Hblk q). rewrite cy_recv_iff by assumption. split; [|eauto].
    intros (j & Hj & E' & R). rewrite <- E in E'.
    assert (D1 := dist_lt i Hi). assert (D2 := dist_lt j Hj).
    apply shift_inj in E'; [|assumption|assumption]. apply Nat.mul_cancel_r in E'; [|lia].
    replace i with j by lia. exact R.
  Qed.
  Lemma cy_recv_none q t : q < n -> (forall i, i < p -> (q + (i + 1) * g) mod n <> t) ->
    recv_lines blk q t = [].
  Proof.
    intros Hq H. apply recv_lines_nil. intros l Hl. rewrite Hblk in Hl; cbn [num_lines] in Hl.
    apply not_true_is_false. intros E. apply cy_recv_iff in E; [|assumption|assumption].
    destruct E as (i & Hi & E & _). apply (H i); assumption.
  Qed.

  Lemma dist_dec q t : (exists i, i < p /\ (q + (i + 1) * g) mod n = t) \/
                       (forall i, i < p -> (q + (i + 1) * g) mod n <> t).
  Proof.
    clear - p. induction p as [|k IH]; [right; intros; lia|].
    destruct IH as [(i & Hi & E)|H]; [left; exists i; split; [lia|assumption]|].
    destruct (Nat.eq_dec ((q + (k + 1) * g) mod n) t) as [E|E]; [left; exists k; split; [lia|assumption]|].
    right. intros i Hi. destruct (Nat.eq_dec i k) as [->|]; [assumption|apply H; lia].
  Qed.

  Lemma cy_self q i : q < n -> i < p -> (q + (i + 1) * g) mod n <> q.
  Proof.
    intros Hq Hi. assert (D := dist_lt i Hi). apply shift_self; [|assumption]. split; [|assumption].
    apply Nat.lt_le_trans with (1 * g); [lia|apply Nat.mul_le_mono_r; lia].
  Qed.

  Lemma cy_simple q : q < n -> simple_recv n blk q.
  Proof.
    intros Hq t Ht D. split.
    - destruct (dist_dec q t) as [(i & Hi & E)|H].
      + rewrite (cy_recv q t i) by assumption. exists ((i + 1) * g). rewrite seq_length. reflexivity.
      + rewrite cy_recv_none by assumption. exists 0. reflexivity.
    - unfold reduces_into. set (l := last (recv_lines blk q t) 0).
      assert (Hl : l < NL).
      { unfold l. destruct (dist_dec q t) as [(i & Hi & E)|H].
        - rewrite (cy_recv q t i) by assumption. assert (F := part_fit i Hi).
          assert (X : forall k a, a + k <= NL -> 0 < NL -> last (seq a k) 0 < NL).
          { intros k. induction k as [|k IH]; intros a Ha HNL; [assumption|].
            destruct k as [|k]; [cbn; lia|]. change (last (seq a (S (S k))) 0) with (last (seq (S a) (S k)) 0).
            apply IH; lia. }
          apply X; lia.
        - rewrite cy_recv_none by assumption. cbn. lia. }
      rewrite Hblk; cbn [lines]. rewrite recv_line by assumption.
      destruct (Nat.leb_spec g l); [|reflexivity]. rewrite is_node_zn. apply Nat.eqb_neq.
      destruct (line_dec l ltac:(lia)) as (i & Hi & _ & ->). apply cy_self; assumption.
  Qed.

  Lemma cy_no_reduce q l : reducefrom (cy_line n NL g g p q l) = [] /\ copyreducefrom (cy_line n NL g g p q l) = [].
  Proof.
    unfold cy_line. destruct (l <? _); [split; reflexivity|]. destruct (g <=? l); split; reflexivity.
  Qed.
  Lemma cy_frac q l : frac (cy_line n NL g g p q l) = (q + l) mod n.
  Proof.
    unfold cy_line. destruct (l <? _); [reflexivity|]. destruct (g <=? l); reflexivity.
  Qed.

  Lemma cy_matched : well_matched n blk.
  Proof.
    split.
    - intros t q Ht Hq D. destruct (dist_dec q t) as [(i & Hi & E)|H].
      + rewrite (cy_recv q t i), (cy_sent t q i) by assumption. split; [|exists ((i + 1) * g); rewrite seq_length; reflexivity].
        assert (X : forall k c, map (fun l => frac (lines (blk t) l)) (seq c k) = map (fun l => frac (lines (blk q) l)) (seq ((i + 1) * g + c) k)).
        { intros k. induction k as [|k IH]; intros c; [reflexivity|]. cbn [seq map].
          rewrite <- Nat.add_succ_r, <- IH. f_equal. rewrite !Hblk; cbn [lines]. rewrite !cy_frac.
          rewrite <- E, Nat.add_mod_idemp_l by lia. f_equal. lia. }
        rewrite X, Nat.add_0_r. reflexivity.
      + rewrite cy_recv_none, cy_sent_none by assumption. split; [reflexivity|exists 0; reflexivity].
    - intros q l Hq Hl. rewrite Hblk in *; cbn [lines num_lines] in *.
      destruct (cy_no_reduce q l) as (-> & ->). split; [|constructor].
      apply Forall_app. split.
      + rewrite sends_line. destruct (l <? part 0); [|constructor]. apply Forall_forall. intros e He.
        apply in_map_iff in He. destruct He as (i & <- & Hi). apply in_seq in Hi.
        assert (Hi' : i < p) by (destruct (NL - p * g <=? l); lia).
        assert (Di := dist_lt i Hi'). apply good_zn; [apply Nat.mod_upper_bound; lia|].
        intros X. apply back_forth in X; [|lia..]. revert X. apply cy_self; assumption.
      + rewrite recv_line by assumption. destruct (Nat.leb_spec g l) as [A|A]; [|constructor].
        constructor; [|constructor]. destruct (line_dec l ltac:(lia)) as (i & Hi & _ & ->).
        apply good_zn; [apply Nat.mod_upper_bound; lia|]. apply cy_self; assumption.
  Qed.

  Context {V : Type} (op : V -> V -> V) (st : nat -> nat -> V) (x : nat -> V).

  Lemma cy_stage_received q : stage op n blk st q = copyreduced op blk q (reduced op blk q (received op n blk st q)).
  Proof. reflexivity. Qed.

  Lemma cy_stage : (forall q l, q < n -> l < g -> st q l = x ((q + l) mod n)) ->
    forall q l, q < n -> l < NL -> stage op n blk st q l = x ((q + l) mod n).
  Proof.
    intros H q l Hq Hl. unfold stage.
    rewrite copyreduced_id by (intros; rewrite Hblk; apply cy_no_reduce).
    rewrite reduced_nil by (rewrite Hblk; apply cy_no_reduce).
    destruct (le_lt_dec g l) as [A|A].
    - destruct (line_dec l ltac:(lia)) as (i & Hi & Hr & D).
      set (t := (q + (i + 1) * g) mod n).
      assert (Ht : t < n) by (apply Nat.mod_upper_bound; lia).
      assert (PL := part_le i).
      rewrite (received_hit op n blk st q t l ((i + 1) * g) (part i)); auto.
      + rewrite (message_nth op blk st t q 0 (part i)).
        * rewrite H by (auto; lia). f_equal. unfold t. rewrite Nat.add_mod_idemp_l by lia. f_equal. lia.
        * apply (cy_sent t q i); auto.
        * lia.
      + apply cy_self; assumption.
      + apply cy_simple; assumption.
      + apply cy_recv; auto.
      + intros t' Ht' D1 D2 I. apply filter_In in I. destruct I as [I1 I].
        apply cy_recv_iff in I; [|assumption|assumption]. destruct I as (j & Hj & Ej & R).
        assert (D' := line_part j l Hj R). rewrite D in D'. apply D2. rewrite <- Ej. unfold t. repeat f_equal. lia.
    - rewrite received_miss; [apply H; assumption|apply cy_simple; assumption|].
      intros t' Ht' D1 I. apply filter_In in I. destruct I as [_ I].
      apply cy_recv_iff in I; [|assumption|lia]. destruct I as (j & Hj & Ej & R).
      assert (1 * g <= (j + 1) * g) by (apply Nat.mul_le_mono_r; lia). lia.
  Qed.
End Stage.

(* ----- all stages ----- *)
Fixpoint reaches (n g : nat) (ports : list nat) : Prop :=
  match ports with
  | [] => g = n
  | p :: r => 0 < p /\ g * p < n /\ reaches n (cy_lines n g p) r
  end.

Lemma minimal_reaches_aux n r p : Forall (fun p => 0 < p) (r ++ [p]) -> forall g,
  0 < g -> g * spread r * p < n <= g * spread (r ++ [p]) -> reaches n g (r ++ [p]).
Proof.
  induction r as [|a r IH]; intros Hf g Hg (H1 & H2); cbn [app spread fold_right] in *.
  - inversion Hf; subst. rewrite Nat.mul_1_r in *. cbn [reaches]. split; [assumption|]. split; [assumption|].
    unfold cy_lines. destruct (Nat.ltb_spec n (g * (p + 1))); lia.
  - inversion Hf as [|? ? Ha Hr]; subst. fold (spread r) in *. fold (spread (r ++ [p])) in *.
    assert (Hp : 0 < p) by (apply Forall_app in Hr; destruct Hr as [_ Hr]; inversion Hr; assumption).
    assert (S : 0 < spread r) by (clear; induction r; cbn; [lia|]; fold (spread r); nia).
    assert (L : g * (a + 1) < n).
    { apply Nat.le_lt_trans with (g * ((a + 1) * spread r) * p); [|assumption]. 
      rewrite Nat.mul_assoc. apply Nat.le_trans with (g * (a + 1) * (spread r * p)); [|lia].
      assert (1 <= spread r * p) by nia. revert H. generalize (spread r * p) (g * (a + 1)). clear. intros; nia. }
    cbn [reaches]. split; [assumption|]. split; [lia|].
    assert (E : cy_lines n g a = g * (a + 1)) by (unfold cy_lines; destruct (Nat.ltb_spec n (g * (a + 1))); lia).
    rewrite E. apply IH; [assumption|lia|]. rewrite <- !Nat.mul_assoc in *. split; assumption.
Qed.
Lemma minimal_reaches n ports : minimal n ports -> reaches n 1 ports.
Proof.
  intros (Hf & [(-> & ->)|(r & p & -> & H)]); [reflexivity|].
  apply minimal_reaches_aux; [assumption|lia|]. rewrite !Nat.mul_1_l. assumption.
Qed.

Lemma cy_lines_bounds n g p : 0 < g -> 0 < p -> g * p < n ->
  g * p < cy_lines n g p /\ cy_lines n g p <= g * (p + 1) /\ cy_lines n g p <= n.
Proof. intros. unfold cy_lines. destruct (Nat.ltb_spec n (g * (p + 1))); lia. Qed.

(* gbstep and the number of lines agree until the last step *)
Lemma cy_stages_next n g p r t : reaches n (cy_lines n g p) r -> 0 < g -> 0 < p ->
  cy_stages n (cy_lines n g p) (g * (p + 1)) r t = cy_stages n (cy_lines n g p) (cy_lines n g p) r t.
Proof.
  intros H Hg Hp. destruct r as [|a r]; [reflexivity|]. cbn [reaches] in H. destruct H as (Ha & H & _).
  unfold cy_lines in *. destruct (Nat.ltb_spec n (g * (p + 1))); [exfalso; nia|reflexivity].
Qed.

Lemma cy_stages_last n ports t : forall g, 0 < g -> reaches n g ports -> snd (cy_stages n g g ports t) = n.
Proof.
  induction ports as [|p r IH]; intros g Hg H; [exact H|]. cbn [reaches] in H. destruct H as (Hp & Hl & H).
  cbn [cy_stages]. rewrite cy_stages_next by assumption.
  specialize (IH (cy_lines n g p) ltac:(destruct (cy_lines_bounds n g p Hg Hp Hl); lia) H).
  destruct (cy_stages n (cy_lines n g p) (cy_lines n g p) r t). exact IH.
Qed.
Lemma cy_stages_length n ports t : forall P g, length (fst (cy_stages n P g ports t)) = length ports.
Proof.
  induction ports as [|p r IH]; intros P g; [reflexivity|]. cbn [cy_stages].
  specialize (IH (cy_lines n P p) (g * (p + 1))). destruct (cy_stages _ _ _ _ _). cbn in *. congruence.
Qed.

Lemma cy_chain {V} (op : V -> V -> V) n alg (x : nat -> V) ports : forall g start st, 0 < g -> reaches n g ports ->
  (forall q m, m < length ports ->
     nth (start + m) (alg q) empty_block = nth m (fst (cy_stages n g g ports q)) empty_block) ->
  (forall q l, q < n -> l < g -> st q l = x ((q + l) mod n)) ->
  forall q l, q < n -> l < n -> run_from op n alg start (length ports) st q l = x ((q + l) mod n).
Proof.
  induction ports as [|p r IH]; intros g start st Hg H Hs Hst.
  - cbn [reaches] in H. subst g. exact Hst.
  - cbn [reaches] in H. destruct H as (Hp & Hl & H). cbn [length]. rewrite run_from_S.
    destruct (cy_lines_bounds n g p Hg Hp Hl) as (B1 & B2 & B3).
    assert (Pos : 0 < cy_lines n g p) by lia.
    assert (E : forall q, fst (cy_stages n g g (p :: r) q) =
       Block (cy_lines n g p) (cy_line n (cy_lines n g p) g g p q) ::
       fst (cy_stages n (cy_lines n g p) (cy_lines n g p) r q)).
    { intros q. cbn [cy_stages]. rewrite cy_stages_next by assumption.
      destruct (cy_stages _ _ _ _ _). reflexivity. }
    apply (IH (cy_lines n g p)); auto.
    + intros q m Hm. specialize (Hs q (S m) ltac:(cbn; lia)). rewrite Nat.add_succ_r in Hs.
      rewrite E in Hs. exact Hs.
    + apply (cy_stage n g p (cy_lines n g p) Hg Hp B1 B2 B3); [|assumption].
      intros q. specialize (Hs q 0 ltac:(cbn; lia)). rewrite Nat.add_0_r, E in Hs. exact Hs.
Qed.

Lemma cyclic_eq n ports t : reaches n 1 ports ->
  cyclic_allgather n ports t = cy_first t :: fst (cy_stages n 1 1 ports t) ++ [cy_last n n t].
Proof.
  intros H. unfold cyclic_allgather. assert (L := cy_stages_last n ports t 1 ltac:(lia) H).
  destruct (cy_stages n 1 1 ports t). cbn in *. subst. reflexivity.
Qed.
Lemma cyclic_length n ports t : length (cyclic_allgather n ports t) = length ports + 2.
Proof.
  unfold cyclic_allgather. assert (L := cy_stages_length n ports t 1 1).
  destruct (cy_stages n 1 1 ports t). cbn in *. rewrite app_length. cbn. lia.
Qed.

Lemma cyclic_correct {V} (op : V -> V -> V) n ports (x : nat -> V) st : minimal n ports ->
  (forall t, t < n -> placed (first_block (cyclic_allgather n ports t)) (fun _ => x t) (st t)) ->
  forall t, t < n ->
    delivered (last_block (cyclic_allgather n ports t)) (fun f => f < n) x
              (execute op n (cyclic_allgather n ports) (length (cyclic_allgather n ports t)) st t).
Proof.
  intros Hm H0 t Ht. apply minimal_reaches in Hm. rewrite execute_eq, cyclic_length.
  replace (length ports + 2 - 1) with (length ports + 1) by lia. rewrite run_from_add.
  assert (G : forall q l, q < n -> l < n ->
     run_from op n (cyclic_allgather n ports) 1 (length ports) st q l = x ((q + l) mod n)).
  { apply (cy_chain op n _ x ports 1); auto.
    - intros q m Hlt. rewrite cyclic_eq by assumption. cbn [Nat.add nth].
      rewrite app_nth1 by (rewrite cy_stages_length; assumption). reflexivity.
    - intros q l Hq Hl. assert (l = 0) by lia. subst l. rewrite Nat.add_0_r, Nat.mod_small by assumption.
      specialize (H0 q Hq 0 q). unfold first_block in H0. rewrite cyclic_eq in H0 by assumption.
      apply H0; [cbn; lia|reflexivity]. }
  set (s := run_from op n (cyclic_allgather n ports) 1 (length ports) st) in *.
  assert (Hlast : forall q, nth_stage (cyclic_allgather n ports) (1 + length ports) q = cy_last n n q).
  { intros q. unfold nth_stage. rewrite cyclic_eq by assumption. cbn [Nat.add nth].
    rewrite app_nth2; rewrite cy_stages_length; [|lia]. rewrite Nat.sub_diag. reflexivity. }
  assert (LB : last_block (cyclic_allgather n ports t) = cy_last n n t).
  { unfold last_block. rewrite cyclic_eq by assumption. rewrite app_comm_cons. apply last_last. }
  rewrite LB.
  assert (St : forall l, run_from op n (cyclic_allgather n ports) (1 + length ports) 1 s t l = s t l).
  { intros l. unfold run_from. cbn [seq map run fold_left].
    apply idle_stage; intros m; rewrite Hlast; reflexivity. }
  split.
  - intros l f Hl Hf. cbn [num_lines cy_last] in Hl. unfold output_line in Hf. cbn in Hf. injection Hf as <-.
    rewrite St. split; [apply Nat.mod_upper_bound; lia|]. apply G; assumption.
  - intros f Hf. exists ((f + n - t) mod n). cbn [num_lines cy_last].
    split; [apply Nat.mod_upper_bound; lia|]. unfold output_line. cbn [lines cy_last sendto frac existsb is_user fst snd Z.eqb Pos.eqb orb].
    f_equal. rewrite Nat.add_comm. apply (back_forth n); [apply Nat.mod_upper_bound| | |]; try lia.
Qed.

Lemma cyclic_matched n ports m : minimal n ports ->
  well_matched n (fun q => nth m (cyclic_allgather n ports q) empty_block).
Proof.
  intros Hm. apply minimal_reaches in Hm.
  assert (User : forall (b : nat -> block), (forall q, exists f s r, b q = Block (num_lines (b q)) (fun l => Line (f l) (s l) (r l) [] []) /\
      (forall l e, In e (s l ++ r l) -> fst e = (-1)%Z)) -> well_matched n b).
  { intros b Hb.
    assert (U : forall q l e, In e (sendto (lines (b q) l) ++ recvfrom (lines (b q) l)) -> fst e = (-1)%Z).
    { intros q l e. destruct (Hb q) as (f & s & r & E & Hu). rewrite E. cbn [lines sendto recvfrom]. apply Hu. }
    split.
    - intros t q Ht Hq D.
      assert (S1 : sent_lines b t q = []).
      { apply sent_lines_nil. intros l Hl. apply filter_none. intros e He. unfold is_node.
        rewrite (U t l e) by (apply in_or_app; now left). apply Z.eqb_neq. lia. }
      assert (R1 : recv_lines b q t = []).
      { apply recv_lines_nil. intros l Hl. apply not_true_is_false. intros X. apply existsb_exists in X.
        destruct X as (e & He & X). unfold is_node in X. rewrite (U q l e) in X by (apply in_or_app; now right).
        apply Z.eqb_eq in X. lia. }
      rewrite S1, R1. split; [reflexivity|exists 0; reflexivity].
    - intros q l Hq Hl. split.
      + apply Forall_forall. intros e He. rewrite (U q l e He). lia.
      + destruct (Hb q) as (f & s & r & E & _). rewrite E. constructor. }
  destruct m as [|m].
  { apply User. intros q. exists (fun _ => q), (fun _ => []), (fun _ => [((-1)%Z, 0)]).
    rewrite cyclic_eq by assumption. split; [reflexivity|]. cbn. intros l e [<-|[]]; reflexivity. }
  destruct (Nat.lt_trichotomy m (length ports)) as [H|[->|H]].
  - assert (A : forall ports g m, 0 < g -> reaches n g ports -> m < length ports ->
      exists g' p NL, 0 < g' /\ 0 < p /\ g' * p < NL /\ NL <= g' * (p + 1) /\ NL <= n /\
        forall q, nth m (fst (cy_stages n g g ports q)) empty_block = Block NL (cy_line n NL g' g' p q)).
    { clear. induction ports as [|p r IH]; intros g m Hg H Hm; [cbn in Hm; lia|].
      cbn [reaches] in H. destruct H as (Hp & Hl & H).
      destruct (cy_lines_bounds n g p Hg Hp Hl) as (B1 & B2 & B3).
      destruct m as [|m].
      - exists g, p, (cy_lines n g p). repeat (split; [assumption|]). intros q. cbn [cy_stages].
        destruct (cy_stages _ _ _ _ _). reflexivity.
      - destruct (IH (cy_lines n g p) m ltac:(lia) H ltac:(cbn in Hm; lia)) as (g' & p' & NL & C1 & C2 & C3 & C4 & C5 & C6).
        exists g', p', NL. repeat (split; [assumption|]). intros q. rewrite <- C6. cbn [cy_stages].
        rewrite cy_stages_next by assumption. destruct (cy_stages _ _ _ _ _). reflexivity. }
    destruct (A ports 1 m ltac:(lia) Hm H) as (g & p & NL & C1 & C2 & C3 & C4 & C5 & C6).
    apply (cy_matched n g p NL); auto. intros q. rewrite <- C6, cyclic_eq by assumption. cbn [nth].
    rewrite app_nth1 by (rewrite cy_stages_length; assumption). reflexivity.
  - apply User. intros q. exists (fun l => (q + l) mod n), (fun l => [((-1)%Z, (q + l) mod n)]), (fun _ => []).
    rewrite cyclic_eq by assumption. cbn [nth].
    rewrite app_nth2; rewrite cy_stages_length; [|lia]. rewrite Nat.sub_diag. split; [reflexivity|].
    cbn. intros l e [<-|[]]; reflexivity.
  - apply (matched_ext n (fun _ => empty_block)); [|apply matched_empty].
    intros q. symmetry. apply nth_overflow. rewrite cyclic_length. lia.
Qed.
