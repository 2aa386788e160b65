From Verif Require Import Base SchedModel SchedSpec SchedProofs RecursiveModel RecursiveProofs GroupModel GroupSpec.
Local Ltac Zify.zify_post_hook ::= idtac.
Local Open Scope Z_scope.

Lemma local_global P u0 s step : 0 <= s -> splits P u0 step ->
  socket_global P u0 (fst (socket_local P u0 s step)) step (snd (socket_local P u0 s step)) = s.
Proof.
  intros Hs H. unfold splits, socket_local, socket_global in *.
  destruct (split_at P step u0) as [j g]. destruct H as (Hj & Hg & _). cbn [fst snd].
  assert (A : 0 <= Z.quot s j) by (apply Z.quot_pos; lia).
  assert (B : 0 <= Z.rem (Z.quot s j) g) by (apply Z.rem_nonneg; lia).
  apply Z.leb_le in B. rewrite B. 
  assert (E1 := Z.quot_rem s j ltac:(lia)). assert (E2 := Z.quot_rem (Z.quot s j) g ltac:(lia)). lia.
Qed.

Lemma local_range P u0 s step : 0 <= s < p_sockets P -> splits P u0 step ->
  in_range P u0 step (fst (socket_local P u0 s step)) (snd (socket_local P u0 s step)).
Proof.
  intros Hs H. unfold splits, socket_local, in_range in *.
  destruct (split_at P step u0) as [j g]. destruct H as (Hj & Hg & Hd). cbn [fst snd].
  assert (A : 0 <= Z.quot s j) by (apply Z.quot_pos; lia).
  split; [apply Z.rem_bound_pos; lia|]. split; [apply Z.rem_bound_pos; lia|].
  split; [apply Z.quot_pos; lia|]. rewrite Z.quot_quot by lia.
  destruct Hd as [m Hm]. rewrite Hm, Z.quot_mul by nia.
  apply Z.quot_lt_upper_bound; nia.
Qed.

Lemma global_range P u0 l step c : splits P u0 step -> in_range P u0 step l c ->
  0 <= socket_global P u0 l step c < p_sockets P.
Proof.
  intros H R. unfold splits, in_range, socket_global in *.
  destruct (split_at P step u0) as [j g]. destruct H as (Hj & Hg & Hd). destruct R as (R1 & R2 & R3).
  assert (B : 0 <= l) by lia. apply Z.leb_le in B. rewrite B.
  destruct Hd as [m Hm]. rewrite Hm in *. rewrite Z.quot_mul in R3 by nia.
  destruct c as [c0 c1]; cbn [fst snd] in *. 
  assert (X : 0 <= g * c1) by nia. assert (Y : l + g * c1 + 1 <= g * m) by nia.
  split; [nia|].
  assert (Z : forall a b, 0 <= a -> a + 1 <= b -> a * j + c0 < j * b) by (intros; nia).
  assert (W := Z (l + g * c1) (g * m)). lia.
Qed.

Lemma global_local P u0 l step c : splits P u0 step -> in_range P u0 step l c ->
  socket_local P u0 (socket_global P u0 l step c) step = (l, c).
Proof.
  intros H R. unfold splits, in_range, socket_global, socket_local in *.
  destruct (split_at P step u0) as [j g]. destruct H as (Hj & Hg & Hd). destruct R as (R1 & R2 & R3).
  assert (B : 0 <= l) by lia. apply Z.leb_le in B. rewrite B.
  destruct c as [c0 c1]; cbn [fst snd] in *.
  assert (X : 0 <= g * c1) by nia.
  assert (Q : Z.quot ((l + g * c1) * j + c0) j = l + g * c1).
  { symmetry. apply Z.quot_unique with c0; nia. }
  assert (Q2 : Z.quot (l + g * c1) g = c1) by (symmetry; apply Z.quot_unique with l; nia).
  rewrite Q, Q2. f_equal; [|f_equal].
  - symmetry. apply Z.rem_unique with c1; nia.
  - symmetry. apply Z.rem_unique with (l + g * c1); nia.
Qed.

(* ----- the digits of a socket number ----- *)
Lemma split_at_S P u0 sign i : sign = 1 \/ sign = -1 ->
  split_at P (sign * Z.of_nat (S i)) u0 =
  let '(j, u) := split_at P (sign * Z.of_nat i) u0 in
  let g := group_size P (sign * Z.of_nat (S i)) u in (Z.quot j g, g).
Proof.
  intros Hs. unfold split_at.
  assert (E : forall k, Z.to_nat (Z.abs (sign * Z.of_nat k)) = k) by (intros; destruct Hs; subst; lia).
  rewrite !E, (seq_S (S i)), fold_left_app. cbn [fold_left Nat.add].
  assert (F : forall l acc, (forall k, In k l -> (k <= i)%nat) ->
     fold_left (fun '(j, u) (k : nat) => let g := group_size P (if sign * Z.of_nat (S i) <=? 0 then - Z.of_nat k else Z.of_nat k) u in (Z.quot j g, g)) l acc =
     fold_left (fun '(j, u) (k : nat) => let g := group_size P (if sign * Z.of_nat i <=? 0 then - Z.of_nat k else Z.of_nat k) u in (Z.quot j g, g)) l acc).
  { induction l as [|k l IH]; intros [a b] Hl; [reflexivity|]. cbn [fold_left].
    assert (Hk := Hl k (or_introl eq_refl)). rewrite <- IH by (intros; apply Hl; now right). 
    replace (if sign * Z.of_nat i <=? 0 then - Z.of_nat k else Z.of_nat k)
      with (if sign * Z.of_nat (S i) <=? 0 then - Z.of_nat k else Z.of_nat k); [reflexivity|].
    destruct Hs; subst; destruct (Z.leb_spec (1 * Z.of_nat (S i)) 0), (Z.leb_spec (1 * Z.of_nat i) 0);
      try (destruct (Z.leb_spec (-1 * Z.of_nat (S i)) 0), (Z.leb_spec (-1 * Z.of_nat i) 0)); lia. }
  rewrite F by (intros k Hk; apply in_seq in Hk; lia).
  destruct (fold_left _ _ _) as [a b].
  replace (if sign * Z.of_nat (S i) <=? 0 then - Z.of_nat (S i) else Z.of_nat (S i)) with (sign * Z.of_nat (S i)).
  - reflexivity.
  - destruct Hs; subst; [destruct (Z.leb_spec (1 * Z.of_nat (S i)) 0)|destruct (Z.leb_spec (-1 * Z.of_nat (S i)) 0)]; lia.
Qed.

Section Digits.
  Context (P : params) (u0 sign : Z) (Hs : sign = 1 \/ sign = -1).
  Let J (i : nat) := fst (split_at P (sign * Z.of_nat i) u0).
  Let G (i : nat) := snd (split_at P (sign * Z.of_nat i) u0).
  Context (k : nat) (Hc : covers P u0 sign k).

  Lemma G_pos i : (i <= k)%nat -> 0 < G i.
  Proof using Hc.
    intros Hi. destruct Hc as [F _]. unfold sizes in F. rewrite Forall_map in F.
    rewrite Forall_forall in F. apply (F i). apply in_seq. lia.
  Qed.
  Definition rest (i : nat) : Z := fold_right Z.mul 1 (map G (seq (S i) (k - i))).
  Lemma rest_S i : (i < k)%nat -> rest i = G (S i) * rest (S i).
  Proof using. intros Hi. unfold rest. replace (k - i)%nat with (S (k - S i)) by lia. reflexivity. Qed.
  Lemma rest_pos i : 0 < rest i.
  Proof using Hc.
    unfold rest. assert (A : forall m, In m (seq (S i) (k - i)) -> 0 < G m).
    { intros m Hm. apply in_seq in Hm. apply G_pos. lia. }
    induction (seq _ _) as [|a l IH]; cbn [map fold_right]; [lia|].
    apply Z.mul_pos_pos; [apply A; now left|apply IH; intros; apply A; now right].
  Qed.
  Lemma J_rest i : (i <= k)%nat -> J i = rest i.
  Proof using Hc Hs.
    induction i as [|i IH]; intros Hi.
    - destruct Hc as [_ E]. unfold J. 
      assert (S0 : split_at P (sign * Z.of_nat 0) u0 = (Z.quot (p_sockets P) (G 0), G 0)).
      { unfold G. rewrite Z.mul_0_r. unfold split_at. cbn [Z.abs Z.to_nat seq fold_left]. reflexivity. }
      rewrite S0. cbn [fst]. rewrite <- E. unfold sizes. 
      change (fold_right Z.mul 1 _) with (G 0 * fold_right Z.mul 1 (map G (seq 1 k))).
      assert (X := G_pos 0 ltac:(lia)).
      rewrite Z.mul_comm, Z.quot_mul by lia. unfold rest. rewrite Nat.sub_0_r. reflexivity.
    - assert (E := split_at_S P u0 sign i Hs). assert (IH' := IH ltac:(lia)). unfold J in IH'.
      assert (GS : G (S i) = group_size P (sign * Z.of_nat (S i)) (snd (split_at P (sign * Z.of_nat i) u0))).
      { unfold G. rewrite E. destruct (split_at P (sign * Z.of_nat i) u0). reflexivity. }
      unfold J. rewrite E. destruct (split_at P (sign * Z.of_nat i) u0) as [a b]. cbn [fst snd] in *.
      rewrite <- GS, IH', rest_S by lia. rewrite Z.mul_comm. apply Z.quot_mul.
      assert (X := G_pos (S i) ltac:(lia)). lia.
  Qed.

  Lemma digits_determine s s' : 0 <= s < p_sockets P -> 0 <= s' < p_sockets P ->
    (forall i, (i <= k)%nat -> fst (socket_local P u0 s (sign * Z.of_nat i)) = fst (socket_local P u0 s' (sign * Z.of_nat i))) ->
    s = s'.
  Proof using Hc Hs.
    intros Hr Hr' H.
    assert (D : forall s i, (i <= k)%nat -> fst (socket_local P u0 s (sign * Z.of_nat i)) = Z.rem (Z.quot s (rest i)) (G i)).
    { intros t i Hi. rewrite <- (J_rest i Hi). unfold socket_local, J, G. destruct (split_at _ _ _). reflexivity. }
    assert (N0 : p_sockets P = G 0 * rest 0).
    { destruct Hc as [_ E]. rewrite <- E. unfold sizes, rest. rewrite Nat.sub_0_r. reflexivity. }
    assert (Q : forall i, (i <= k)%nat -> Z.quot s (rest i) = Z.quot s' (rest i)).
    { induction i as [|i IH]; intros Hi.
      - specialize (H 0%nat Hi). rewrite !D in H by lia. assert (R := rest_pos 0). assert (GP := G_pos 0 Hi).
        rewrite !Z.rem_small in H; [assumption|..];
          (split; [apply Z.quot_pos; lia|apply Z.quot_lt_upper_bound; [lia|lia|rewrite Z.mul_comm, <- N0; lia]]).
      - specialize (IH ltac:(lia)). specialize (H (S i) Hi). rewrite !D in H by lia.
        assert (R := rest_pos (S i)). assert (GP := G_pos (S i) Hi).
        rewrite rest_S in IH by lia. rewrite (Z.mul_comm (G (S i))), <- !Z.quot_quot in IH by lia.
        rewrite (Z.quot_rem' (Z.quot s (rest (S i))) (G (S i))), (Z.quot_rem' (Z.quot s' (rest (S i))) (G (S i))).
        rewrite H, IH. reflexivity. }
    specialize (Q k (le_n _)). replace (rest k) with 1 in Q; [rewrite !Z.quot_1_r in Q; exact Q|].
    unfold rest. rewrite Nat.sub_diag. reflexivity.
  Qed.
End Digits.

(* ----- renaming of partners ----- *)
Local Open Scope nat_scope.
Lemma flat_map_ext_in {A B} (f g : A -> list B) l : (forall x, In x l -> f x = g x) -> flat_map f l = flat_map g l.
Proof.
  induction l as [|x l IH]; intros H; [reflexivity|]. cbn.
  rewrite (H x (or_introl eq_refl)), IH by (intros; apply H; now right). reflexivity.
Qed.

Section Rename.
  Context {C : Type} (N G : nat) (part : nat -> C) (loc : nat -> nat) (glob : C -> nat -> nat).
  Context (Hloc : forall s, s < N -> loc s < G) (Hback : forall s, s < N -> glob (part s) (loc s) = s).
  Context (Hglob : forall s l, s < N -> l < G ->
             glob (part s) l < N /\ part (glob (part s) l) = part s /\ loc (glob (part s) l) = l).

  Definition ren (c : C) (e : Z) : Z := if (0 <=? e)%Z then zn (glob c (Z.to_nat e)) else e.
  Definition ren_line (ff : C -> nat -> nat) (c : C) (ln : line) : line :=
    let m := map (fun e : Z * nat => (ren c (fst e), snd e)) in
    Line (ff c (frac ln)) (m (sendto ln)) (m (recvfrom ln)) (reducefrom ln) (copyreducefrom ln).

  Context (ff : C -> nat -> nat) (LB : C -> nat -> block).
  Context (Hw : forall s, s < N -> well_matched G (LB (part s))).
  Context (blk : nat -> block)
    (Hblk : forall s, s < N -> num_lines (blk s) = num_lines (LB (part s) (loc s)) /\
       forall n, n < num_lines (LB (part s) (loc s)) -> lines (blk s) n = ren_line ff (part s) (lines (LB (part s) (loc s)) n)).

  Lemma entry_good s n e : s < N -> n < num_lines (LB (part s) (loc s)) ->
    In e (sendto (lines (LB (part s) (loc s)) n) ++ recvfrom (lines (LB (part s) (loc s)) n)) ->
    (fst e = -1 \/ 0 <= fst e < Z.of_nat G)%Z /\ fst e <> zn (loc s).
  Proof using Hw Hloc.
    intros Hs Hn He. destruct (Hw s Hs) as [_ H]. specialize (H (loc s) n (Hloc s Hs) Hn).
    destruct H as [H _]. rewrite Forall_forall in H. apply H, He.
  Qed.
  Lemma ren_is_node s q e : s < N -> q < N -> (fst e = -1 \/ 0 <= fst e < Z.of_nat G)%Z ->
    is_node q (ren (part s) (fst e), snd e) = true <-> is_node (loc q) e = true /\ part s = part q.
  Proof using Hloc Hback Hglob.
    clear Hblk blk Hw LB ff. intros Hs Hq He. unfold is_node, ren. cbn [fst]. rewrite !Z.eqb_eq. destruct (Z.leb_spec 0 (fst e)) as [A|A].
    - destruct (Hglob s (Z.to_nat (fst e)) Hs ltac:(lia)) as (G1 & G2 & G3). unfold zn. split.
      + intros E. apply Nat2Z.inj in E. subst q. rewrite G3, G2. split; [lia|reflexivity].
      + intros [E1 E2]. f_equal. rewrite E1, Nat2Z.id, E2. apply Hback, Hq.
    - split; intros; lia.
  Qed.
  Lemma ren_sent p q : p < N -> q < N ->
    part p = part q -> sent_lines blk p q = sent_lines (LB (part p)) (loc p) (loc q).
  Proof using All.
    intros Hp Hq E. unfold sent_lines. destruct (Hblk p Hp) as [-> Hl].
    apply flat_map_ext_in. intros n Hn. apply in_seq in Hn. rewrite Hl by lia.
    cbn [ren_line sendto]. 
    assert (A : forall e, In e (sendto (lines (LB (part p) (loc p)) n)) -> (fst e = -1 \/ 0 <= fst e < Z.of_nat G)%Z).
    { intros e He. apply (entry_good p n e Hp ltac:(lia)). apply in_or_app. now left. }
    induction (sendto _) as [|e l IH]; [reflexivity|]. cbn [map filter].
    assert (R := ren_is_node p q e Hp Hq (A e (or_introl eq_refl))).
    destruct (is_node q _) eqn:E1, (is_node (loc q) e) eqn:E2.
    - cbn [map]. f_equal. apply IH. intros; apply A; now right.
    - destruct R as [R _]. destruct (R eq_refl); discriminate.
    - destruct R as [_ R]. assert (X : false = true) by (apply R; auto). discriminate.
    - apply IH. intros; apply A; now right.
  Qed.
  Lemma ren_sent_none p q : p < N -> q < N -> part p <> part q -> sent_lines blk p q = [].
  Proof using All.
    intros Hp Hq E. apply sent_lines_nil. destruct (Hblk p Hp) as [-> Hl]. intros n Hn. rewrite Hl by lia.
    cbn [ren_line sendto]. apply filter_none. intros x Hx. apply in_map_iff in Hx. destruct Hx as (e & <- & He).
    apply not_true_is_false. intros X. apply ren_is_node in X; [tauto|assumption|assumption|].
    apply (entry_good p n e Hp Hn). apply in_or_app. now left.
  Qed.
  Lemma ren_recv p q : p < N -> q < N ->
    part p = part q -> recv_lines blk q p = recv_lines (LB (part p)) (loc q) (loc p).
  Proof using All.
    intros Hp Hq E. unfold recv_lines. destruct (Hblk q Hq) as [-> Hl]. rewrite E.
    apply filter_ext_in. intros n Hn. apply in_seq in Hn. rewrite Hl by lia. cbn [ren_line recvfrom].
    assert (A : forall e, In e (recvfrom (lines (LB (part q) (loc q)) n)) -> (fst e = -1 \/ 0 <= fst e < Z.of_nat G)%Z).
    { intros e He. apply (entry_good q n e Hq ltac:(lia)). apply in_or_app. now right. }
    induction (recvfrom _) as [|e l IH]; [reflexivity|]. cbn [map existsb].
    rewrite IH by (intros; apply A; now right). f_equal.
    assert (R := ren_is_node q p e Hq Hp (A e (or_introl eq_refl))).
    destruct (is_node p _) eqn:E1, (is_node (loc p) e) eqn:E2; try reflexivity.
    - destruct R as [R _]. destruct (R eq_refl); discriminate.
    - destruct R as [_ R]. apply R; auto.
  Qed.
  Lemma ren_recv_none p q : p < N -> q < N -> part p <> part q -> recv_lines blk q p = [].
  Proof using All.
    intros Hp Hq E. apply recv_lines_nil. destruct (Hblk q Hq) as [-> Hl]. intros n Hn. rewrite Hl by lia.
    cbn [ren_line recvfrom]. apply not_true_is_false. intros X. apply existsb_exists in X. destruct X as (x & Hx & X).
    apply in_map_iff in Hx. destruct Hx as (e & <- & He).
    apply ren_is_node in X; [destruct X; congruence|assumption|assumption|].
    apply (entry_good q n e Hq Hn). apply in_or_app. now right.
  Qed.

  (* the classes need not be decidable: use the sockets *)
  Lemma part_dec p q : p < N -> q < N -> part p = part q \/ part p <> part q.
  Proof using Hloc Hback Hglob.
    clear Hblk blk Hw LB ff. intros Hp Hq. destruct (Nat.eq_dec (glob (part p) (loc q)) q) as [E|E].
    - left. destruct (Hglob p (loc q) Hp (Hloc q Hq)) as (_ & E2 & _). rewrite E in E2. auto.
    - right. intros X. apply E. rewrite X. apply Hback, Hq.
  Qed.

  Lemma loc_inj p q : p < N -> q < N -> part p = part q -> loc p = loc q -> p = q.
  Proof using Hback. intros Hp Hq E1 E2. rewrite <- (Hback p Hp), <- (Hback q Hq). congruence. Qed.

  Lemma ren_matched : well_matched N blk.
  Proof using All.
    split.
    - intros p q Hp Hq D. destruct (part_dec p q Hp Hq) as [E|E].
      + rewrite ren_sent, ren_recv by assumption.
        assert (D' : loc p <> loc q) by (intros X; apply D, loc_inj; assumption).
        destruct (Hw p Hp) as [H _]. specialize (H (loc p) (loc q) (Hloc p Hp) (Hloc q Hq) D'). destruct H as [H1 H2].
        split; [|exact H2].
        assert (A : forall s rl, s < N -> part s = part p -> Forall (fun n => n < num_lines (LB (part p) (loc s))) rl ->
           map (fun n => frac (lines (blk s) n)) rl = map (ff (part p)) (map (fun n => frac (lines (LB (part p) (loc s)) n)) rl)).
        { intros s rl Hs Es Hl. rewrite map_map. apply map_ext_in. intros n Hn. rewrite Forall_forall in Hl.
          destruct (Hblk s Hs) as [_ X]. rewrite X by (rewrite Es; apply Hl, Hn). rewrite Es. reflexivity. }
        rewrite (A p), (A q), H1; auto.
        * apply Forall_forall. intros n Hn. apply filter_In in Hn. destruct Hn as [Hn _]. apply in_seq in Hn. lia.
        * apply Forall_forall. intros n Hn. unfold sent_lines in Hn. apply in_flat_map in Hn. destruct Hn as (m & Hm & Hn).
          apply in_map_iff in Hn. destruct Hn as (? & <- & _). apply in_seq in Hm. lia.
      + rewrite ren_sent_none, ren_recv_none by assumption. split; [reflexivity|exists 0; reflexivity].
    - intros p n Hp Hn. destruct (Hblk p Hp) as [En Hl]. rewrite En in Hn. rewrite Hl by assumption.
      cbn [ren_line sendto recvfrom reducefrom copyreducefrom frac]. split.
      + rewrite <- map_app. apply Forall_forall. intros x Hx. apply in_map_iff in Hx. destruct Hx as (e & <- & He).
        cbn [fst]. destruct (entry_good p n e Hp Hn He) as [H1 H2]. unfold ren.
        destruct (Z.leb_spec 0 (fst e)); [|split; lia].
        destruct (Hglob p (Z.to_nat (fst e)) Hp ltac:(lia)) as (G1 & G2 & G3). unfold zn in *.
        split; [lia|]. intros X. apply Nat2Z.inj in X. rewrite X in G3. lia.
      + destruct (Hw p Hp) as [_ H]. specialize (H (loc p) n (Hloc p Hp) Hn). destruct H as [_ H].
        eapply Forall_impl; [|exact H]. cbn. intros r [R1 R2]. rewrite En, Hl by assumption. cbn [frac ren_line].
        rewrite R2. auto.
  Qed.
End Rename.

Lemma revise_matched P u0 step (LB : Z * Z -> nat -> block) :
  splits P u0 step ->
  (forall c, (exists l, in_range P u0 step l c) -> well_matched (Z.to_nat (snd (split_at P step u0))) (LB c)) ->
  well_matched (Z.to_nat (p_sockets P)) (fun s =>
    let '(l, c) := socket_local P u0 (Z.of_nat s) step in revise_block P u0 step c (LB c (Z.to_nat l))).
Proof.
  intros Hs Hw.
  assert (R : forall s, s < Z.to_nat (p_sockets P) ->
    in_range P u0 step (fst (socket_local P u0 (Z.of_nat s) step)) (snd (socket_local P u0 (Z.of_nat s) step))).
  { intros s H. apply local_range; [lia|assumption]. }
  apply (ren_matched (Z.to_nat (p_sockets P)) (Z.to_nat (snd (split_at P step u0)))
    (fun s => snd (socket_local P u0 (Z.of_nat s) step))
    (fun s => Z.to_nat (fst (socket_local P u0 (Z.of_nat s) step)))
    (fun c l => Z.to_nat (socket_global P u0 (Z.of_nat l) step c))) with
    (ff := fun c f => if (step =? 0)%Z then Z.to_nat (socket_global P u0 (Z.of_nat f) step c) else f) (LB := LB).
  - intros s H. specialize (R s H). unfold in_range in R. destruct (split_at P step u0). cbn [snd]. lia.
  - intros s H. specialize (R s H). rewrite Z2Nat.id.
    + rewrite local_global; [apply Nat2Z.id|lia|assumption].
    + unfold in_range in R. destruct (split_at P step u0). lia.
  - intros s l H Hl. specialize (R s H). cbv beta. set (c := snd (socket_local P u0 (Z.of_nat s) step)) in *.
    assert (R' : in_range P u0 step (Z.of_nat l) c).
    { unfold in_range in *. destruct (split_at P step u0). cbn [snd] in Hl. intuition lia. }
    assert (B := global_range P u0 (Z.of_nat l) step c Hs R'). 
    rewrite !Z2Nat.id by lia. rewrite global_local by assumption. cbn [fst snd]. rewrite Nat2Z.id. split; [lia|auto].
  - intros s H. apply Hw. eexists. apply R, H.
  - intros s H. destruct (socket_local P u0 (Z.of_nat s) step) as [l c] eqn:E. cbn [fst snd]. split; [reflexivity|].
    intros n Hn. cbn [revise_block lines]. unfold revise_line, ren_line.
    assert (F : forall es : list (Z * nat),
       map (fun e => (socket_global P u0 (fst e) step c, snd e)) es =
       map (fun e => (ren (fun c l => Z.to_nat (socket_global P u0 (Z.of_nat l) step c)) c (fst e), snd e)) es).
    { intros es. apply map_ext. intros e. f_equal. unfold ren. destruct (Z.leb_spec 0 (fst e)) as [A|A].
      - rewrite (Z2Nat.id (fst e)) by assumption. unfold zn. rewrite Z2Nat.id; [reflexivity|].
        assert (X := R s H). rewrite E in X. cbn [fst snd] in X. unfold splits, in_range in *. unfold socket_global.
        destruct (split_at P step u0) as [j g]. assert (A' := A). apply Z.leb_le in A'. rewrite A'. nia.
      - unfold socket_global. destruct (split_at P step u0). apply Z.leb_gt in A. rewrite A. reflexivity. }
    rewrite !F. reflexivity.
Qed.
