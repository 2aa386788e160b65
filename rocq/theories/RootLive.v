(* Which lines the backward interpreter keeps, and why the kept part of a
   schedule computes the same values as the whole schedule. *)
From Verif Require Import Base SchedModel SchedSpec SchedProofs RawModel MsgProofs PhaseProofs RawCode RawStage RawProofs RootModel RootCode.
Local Ltac Zify.zify_post_hook ::= idtac.

(* A stage as the recursive generators make it. *)
Record tidy (N : nat) (b : nat -> block) : Prop := {
  pl_match : well_matched N b;
  pl_simple : forall q, q < N -> simple_recv N b q;
  pl_nocopy : forall q n, q < N -> copyreducefrom (lines (b q) n) = [];
  pl_source : forall q n r, q < N -> In r (reducefrom (lines (b q) n)) -> reducefrom (lines (b q) r) = [];
  pl_apart : forall q n, q < N -> n < num_lines (b q) -> recvfrom (lines (b q) n) <> [] -> sendto (lines (b q) n) = [];
  pl_one : forall q n, q < N -> n < num_lines (b q) -> length (recvfrom (lines (b q) n)) <= 1;
  pl_nodup : forall p q, p < N -> q < N -> NoDup (sent_lines b p q);
  pl_nodes : forall q n e, q < N -> n < num_lines (b q) -> In e (sendto (lines (b q) n) ++ recvfrom (lines (b q) n)) -> (0 <= fst e)%Z }.

(* ---------- lists ---------- *)
Lemma rev_flat {A B} (f : A -> list B) l : (forall x, In x l -> rev (f x) = f x) -> flat_map f (rev l) = rev (flat_map f l).
Proof.
  induction l as [|x l IH]; intros H; [reflexivity|]. cbn. rewrite flat_map_app, IH by (intros; apply H; now right).
  cbn. rewrite app_nil_r, rev_app_distr. now rewrite H by now left.
Qed.
Lemma rev_const {A B} (c : B) (l : list A) : rev (map (fun _ => c) l) = map (fun _ => c) l.
Proof.
  replace (map (fun _ => c) l) with (repeat c (length l)) by (induction l; cbn; congruence).
  generalize (length l). clear. induction n as [|n IH]; [reflexivity|]. cbn. rewrite IH.
  clear. induction n; cbn; congruence.
Qed.
Lemma combine_rev {A B} : forall (l : list A) (l' : list B), length l = length l' -> combine (rev l) (rev l') = rev (combine l l').
Proof.
  induction l as [|x l IH]; intros [|y l'] E; cbn in *; try discriminate; auto. injection E as E. rewrite <- IH by auto.
  assert (L : length (rev l) = length (rev l')) by (now rewrite !rev_length). revert L. generalize (rev l), (rev l').
  clear. induction l as [|a l IH]; intros [|b l'] E; cbn in *; try discriminate; auto. f_equal. apply IH. lia.
Qed.
Lemma find_last {A} (d : A) (s : list (nat * A)) x : NoDup (map fst s) ->
  (forall v, In (x, v) s -> fold_left (fun a y => if fst y =? x then snd y else a) s d = v) /\
  (~ In x (map fst s) -> fold_left (fun a y => if fst y =? x then snd y else a) s d = d).
Proof.
  revert d. induction s as [|[y w] s IH]; intros d H; cbn [fold_left fst snd map].
  - split; [intros v []|reflexivity].
  - inversion H; subst. destruct (Nat.eqb_spec y x) as [->|D].
    + split.
      * intros v [E|I]; [injection E as <-; now apply (IH w)|]. exfalso. apply H2. change x with (fst (x, v)). now apply in_map.
      * intros X. exfalso. apply X. now left.
    + split.
      * intros v [E|I]; [injection E; congruence|]. now apply IH.
      * intros X. apply IH; auto. intros Y. apply X. now right.
Qed.
Lemma nodup_rev {A} (l : list A) : NoDup l -> NoDup (rev l).
Proof. apply NoDup_rev. Qed.
Lemma in_combine_map {A B C} (f : B -> C) : forall (l : list A) (l' : list B) x y, In (x, y) (combine l l') -> In (x, f y) (combine l (map f l')).
Proof. induction l as [|a l IH]; intros [|b l'] x y; cbn; auto. intros [E|I]; [left; congruence|right; auto]. Qed.
Lemma in_combine_fst {A B} : forall (l : list A) (l' : list B) x, length l = length l' -> In x l -> exists y, In (x, y) (combine l l').
Proof.
  induction l as [|a l IH]; intros [|b l'] x E; cbn in *; try discriminate; [intros []|]. intros [->|I]; [eauto|].
  destruct (IH l' x) as (y & Y); auto. eauto.
Qed.
Lemma in_combine_snd {A B} : forall (l : list A) (l' : list B) y, length l = length l' -> In y l' -> exists x, In (x, y) (combine l l').
Proof.
  induction l as [|a l IH]; intros [|b l'] x E; cbn in *; try discriminate; [intros []|]. intros [->|I]; [eauto|].
  destruct (IH l' x) as (y & Y); auto. eauto.
Qed.
Lemma map_fst_combine {A B} : forall (l : list A) (l' : list B), length l = length l' -> map fst (combine l l') = l.
Proof. induction l as [|a l IH]; intros [|b l'] E; cbn in *; try discriminate; auto. f_equal. apply IH. lia. Qed.

Lemma at_tab N (alg : nat -> list block) i f q n : at_ (tab N alg i f) q n = if (q <? N) && (n <? num_lines (block_at alg i q)) then f q n else 0.
Proof.
  unfold at_, tab, tabulate. destruct (Nat.ltb_spec q N) as [Hq|Hq]; cbn [andb].
  - rewrite (nth_indep _ [] (map (f 0) (seq 0 (num_lines (block_at alg i 0))))) by (rewrite map_length, seq_length; lia).
    rewrite (map_nth (fun q => map (f q) (seq 0 (num_lines (block_at alg i q))))), seq_nth by lia. cbn [plus].
    destruct (Nat.ltb_spec n (num_lines (block_at alg i q))) as [Hn|Hn].
    + rewrite (nth_indep _ 0 (f q 0)) by (rewrite map_length, seq_length; lia). now rewrite map_nth, seq_nth by lia.
    + rewrite nth_overflow; auto. rewrite map_length, seq_length. lia.
  - rewrite (nth_overflow (map _ (seq 0 N))) by (rewrite map_length, seq_length; lia). now destruct n.
Qed.

(* ---------- one block ---------- *)
Section OneBlock.
  Context (N : nat) (b : nat -> block) (P : tidy N b).
  Definition pairs (p q : nat) : list (nat * nat) := combine (sent_lines b p q) (recv_lines b q p).

  Lemma pair_len p q : p < N -> q < N -> p <> q -> length (sent_lines b p q) = length (recv_lines b q p).
  Proof.
    intros Hp Hq D. destruct (pl_match _ _ P) as [W _]. destruct (W p q Hp Hq D) as [E _].
    apply (f_equal (@length _)) in E. now rewrite !map_length in E.
  Qed.
  Lemma in_sent p q x : In x (sent_lines b p q) <-> x < num_lines (b p) /\ exists e, In e (sendto (lines (b p) x)) /\ is_node q e = true.
  Proof.
    unfold sent_lines. rewrite in_flat_map. split.
    - intros (n & Hn & I). apply in_map_iff in I. destruct I as (e & -> & I). apply filter_In in I. apply in_seq in Hn. split; [lia|eauto].
    - intros (Hx & e & I & E). exists x. split; [apply in_seq; lia|]. apply in_map_iff. exists e. split; auto. apply filter_In; auto.
  Qed.
  Lemma in_recv p q n : In n (recv_lines b q p) <-> n < num_lines (b q) /\ exists e, In e (recvfrom (lines (b q) n)) /\ is_node p e = true.
  Proof.
    unfold recv_lines. rewrite filter_In, in_seq, existsb_exists. split; intros [A B]; split; auto; lia.
  Qed.
  Lemma pair_in p q x n : In (x, n) (pairs p q) -> In x (sent_lines b p q) /\ In n (recv_lines b q p).
  Proof. intros I. split; [now apply in_combine_l in I|now apply in_combine_r in I]. Qed.
  Lemma pair_of_sent p q x : p < N -> q < N -> p <> q -> In x (sent_lines b p q) -> exists n, In (x, n) (pairs p q).
  Proof. intros Hp Hq D. apply in_combine_fst. now apply pair_len. Qed.
  Lemma pair_of_recv p q n : p < N -> q < N -> p <> q -> In n (recv_lines b q p) -> exists x, In (x, n) (pairs p q).
  Proof. intros Hp Hq D. apply in_combine_snd. now apply pair_len. Qed.
  Lemma pair_frac p q x n : p < N -> q < N -> p <> q -> In (x, n) (pairs p q) -> frac (lines (b p) x) = frac (lines (b q) n).
  Proof.
    intros Hp Hq D. destruct (pl_match _ _ P) as [W _]. destruct (W p q Hp Hq D) as [E _]. unfold pairs. revert E.
    generalize (sent_lines b p q), (recv_lines b q p). induction l as [|a l IH]; intros [|c l'] E; cbn in *; try discriminate; [intros []|].
    injection E as E1 E2. intros [X|I]; [injection X as <- <-; auto|]. now apply (IH l').
  Qed.

  Lemma told_eq v p q : q < N -> told b v q p = rev (map (at_ v q) (recv_lines b q p)).
  Proof.
    intros Hq. unfold told. rewrite rev_flat by (intros; apply rev_const). f_equal. unfold recv_lines.
    assert (X : forall l, (forall n, In n l -> n < num_lines (b q)) ->
      flat_map (fun j => map (fun _ => at_ v q j) (filter (is_node p) (recvfrom (lines (b q) j)))) l =
      map (at_ v q) (filter (fun n => existsb (is_node p) (recvfrom (lines (b q) n))) l)).
    { induction l as [|n l IH]; intros H; [reflexivity|]. cbn [flat_map filter]. rewrite IH by (intros; apply H; now right).
      pose proof (pl_one _ _ P q n Hq (H n (or_introl eq_refl))) as O.
      destruct (recvfrom (lines (b q) n)) as [|e [|e' es]]; [reflexivity| |cbn in O; lia]. cbn. rewrite orb_false_r.
      destruct (is_node p e); reflexivity. }
    apply X. intros n Hn. apply in_seq in Hn. lia.
  Qed.
  Lemma asked_eq p q : asked b p q = rev (sent_lines b p q).
  Proof. unfold asked, sent_lines. apply rev_flat. intros. apply rev_const. Qed.
  Lemma answer_in v p q x n : p < N -> q < N -> p <> q -> In (x, n) (pairs p q) -> answer b v p q x = at_ v q n.
  Proof.
    intros Hp Hq D I. unfold answer. rewrite asked_eq, told_eq by auto.
    rewrite combine_rev by (rewrite map_length; now apply pair_len). apply find_last.
    - rewrite map_rev, map_fst_combine by (rewrite map_length; now apply pair_len). apply nodup_rev. now apply (pl_nodup _ _ P).
    - apply -> in_rev. now apply in_combine_map.
  Qed.

  Lemma marked_spec v q n : q < N ->
    (marked b v q n <> 0 <-> v q n <> 0 \/ exists n', n' < num_lines (b q) /\ v q n' <> 0 /\ In n (reducefrom (lines (b q) n'))).
  Proof.
    intros Hq. unfold marked.
    assert (X : forall l (u : nat -> nat), (forall j, In j l -> j < num_lines (b q)) ->
      (fold_left (fun v j => mark_line (lines (b q) j) j v) l u n <> 0 <->
       u n <> 0 \/ exists n', In n' l /\ u n' <> 0 /\ In n (reducefrom (lines (b q) n')))).
    { assert (M : forall j u n, mark_line (lines (b q) j) j u n <> 0 <-> u n <> 0 \/ (u j <> 0 /\ In n (reducefrom (lines (b q) j)))).
      { clear n v. intros j u n. unfold mark_line. rewrite (pl_nocopy _ _ P) by auto. rewrite app_nil_r.
        destruct (Nat.eqb_spec (u j) 0) as [Z|Z].
        - rewrite Z. tauto.
        - revert u Z. generalize (reducefrom (lines (b q) j)). induction l as [|r l IH]; intros u Z; cbn [fold_left]; [cbn; tauto|].
          assert (Q : forall m, (if u r =? 0 then upd Nat.eq_dec u r 1 else u) m <> 0 <-> u m <> 0 \/ r = m).
          { intros m. destruct (Nat.eqb_spec (u r) 0) as [Zr|Zr].
            - unfold upd. destruct (Nat.eq_dec m r) as [->|D]; [split; [auto|lia]|]. split; [auto|]. intros [A| ->]; congruence.
            - split; [auto|]. intros [A| <-]; auto. }
          rewrite IH by (apply Q; now left). rewrite !Q. cbn [In]. tauto. }
      induction l as [|j l IH]; intros u H; cbn [fold_left].
      - split; [auto|]. intros [A|(n' & [] & _)]; auto.
      - rewrite IH by (intros; apply H; now right). rewrite M. split.
        + intros [[A|[A B]]|(n' & I & A & B)]; auto.
          * right. exists j. repeat split; auto. now left.
          * apply M in A. destruct A as [A|[A C]].
            -- right. exists n'. repeat split; auto. now right.
            -- exfalso. rewrite (pl_source _ _ P q j n' Hq C) in B. destruct B.
        + intros [A|(n' & [->|I] & A & B)]; auto. right. exists n'. repeat split; auto. apply M. now left. }
    rewrite X by (intros j Hj; apply in_rev, in_seq in Hj; lia). split; intros [A|(n' & I & A & B)]; auto; right; exists n'; repeat split; auto.
    - apply in_rev, in_seq in I. lia.
    - apply -> in_rev. apply in_seq. lia.
  Qed.

  Lemma entry_node p n e : p < N -> n < num_lines (b p) -> In e (sendto (lines (b p) n) ++ recvfrom (lines (b p) n)) ->
    is_node (partner_of e) e = true /\ partner_of e < N /\ partner_of e <> p.
  Proof.
    intros Hp Hn I. destruct (pl_match _ _ P) as [_ W]. destruct (W p n Hp Hn) as [R _]. rewrite Forall_forall in R.
    specialize (R e I). pose proof (pl_nodes _ _ P p n e Hp Hn I) as Z. unfold partner_of, is_node.
    rewrite Z2Nat.id by auto. rewrite Z.eqb_refl. split; auto. lia.
  Qed.
  Lemma node_partner q e : is_node q e = true -> partner_of e = q.
  Proof. unfold is_node, partner_of. intros H. apply Z.eqb_eq in H. rewrite H. apply Nat2Z.id. Qed.

  Lemma sent_needed_spec v p x : p < N -> x < num_lines (b p) ->
    (sent_needed b v p x <> 0 <-> at_ v p x <> 0 \/ exists q n, q < N /\ p <> q /\ In (x, n) (pairs p q) /\ at_ v q n <> 0).
  Proof.
    intros Hp Hx. unfold sent_needed.
    destruct (existsb _ _) eqn:E.
    - split; [|discriminate]. intros _. right. apply existsb_exists in E. destruct E as (e & I & E).
      destruct (entry_node p x e Hp Hx) as (A & B & C); [apply in_or_app; auto|].
      destruct (pair_of_sent p (partner_of e) x) as (n & Hn); auto; [apply in_sent; eauto|].
      exists (partner_of e), n. rewrite (answer_in v p _ x n) in E by auto. apply negb_true_iff, Nat.eqb_neq in E. auto.
    - split; [auto|]. intros [A|(q & n & Hq & D & I & A)]; auto. exfalso.
      destruct (pair_in p q x n I) as [Is _]. apply in_sent in Is. destruct Is as (_ & e & Ie & Ee).
      assert (X : existsb (fun e => negb (answer b v p (partner_of e) x =? 0)) (sendto (lines (b p) x)) = true).
      { apply existsb_exists. exists e. split; auto. rewrite (node_partner q e) by auto. rewrite (answer_in v p q x n) by auto.
        apply negb_true_iff. now apply Nat.eqb_neq. }
      congruence.
  Qed.

  (* ----- values ----- *)
  Context {V : Type} (op : V -> V -> V).
  Lemma value_kept st q n : q < N -> recvfrom (lines (b q) n) = [] -> received op N b st q n = st q n.
  Proof.
    intros Hq E. apply received_miss; [now apply (pl_simple _ _ P)|]. intros p Hp D I. apply in_recv in I.
    destruct I as (_ & e & I & _). rewrite E in I. destruct I.
  Qed.
  Lemma value_received st p q x n : p < N -> q < N -> p <> q -> In (x, n) (pairs p q) -> received op N b st q n = st p x.
  Proof.
    intros Hp Hq D I. destruct (pair_in p q x n I) as [_ In']. pose proof (proj1 (in_recv p q n) In') as (Hn & e & Ie & Ee).
    destruct (pl_match _ _ P) as [W _]. destruct (W p q Hp Hq D) as [_ (a & Ea)].
    rewrite (received_hit op N b st q p n a (length (recv_lines b q p))); auto.
    - assert (X : forall (l : list nat) c, In (x, n) (combine l (seq c (length l))) -> c <= n /\ forall d : V, nth (n - c) (map (st p) l) d = st p x).
      { clear. induction l as [|y l IH]; intros c; cbn [length seq combine]; [intros []|]. intros [E|I].
        - injection E as -> ->. split; auto. intros d. now rewrite Nat.sub_diag.
        - apply IH in I. destruct I as [A B]. split; [lia|]. intros d. replace (n - c) with (S (n - S c)) by lia. apply B. }
      unfold pairs in I. rewrite Ea in I. rewrite <- (pair_len p q Hp Hq D) in I. apply X in I. apply I.
    - now apply (pl_simple _ _ P).
    - rewrite Ea in In'. now apply in_seq in In'.
    - intros p' Hp' Dq Dp I'. apply in_recv in I'. destruct I' as (_ & e' & Ie' & Ee').
      pose proof (pl_one _ _ P q n Hq Hn) as O. apply node_partner in Ee, Ee'.
      destruct (recvfrom (lines (b q) n)) as [|e0 [|e1 es]]; [destruct Ie| |cbn in O; lia].
      destruct Ie as [<-|[]], Ie' as [<-|[]]. congruence.
  Qed.
  Lemma value_stage st q n : q < N -> n < num_lines (b q) ->
    stage op N b st q n = fold_left (fun a r => op a (received op N b st q r)) (reducefrom (lines (b q) n)) (received op N b st q n).
  Proof.
    intros Hq Hn. unfold stage. rewrite copyreduced_id by (intros; now apply (pl_nocopy _ _ P)). apply reduced_at; auto.
    intros r Hr. assert (E := pl_source _ _ P q n r Hq Hr). split; auto. intros ->. rewrite E in Hr. destruct Hr.
  Qed.
End OneBlock.

(* ---------- all blocks ---------- *)
Definition untouched (b : block) : Prop := forall n,
  recvfrom (lines b n) = [] /\ reducefrom (lines b n) = [] /\ copyreducefrom (lines b n) = [].

Section Levels.
  Context (N root : nat) (alg : nat -> list block) (count : nat).
  Local Notation blk i := (block_at alg i).
  Definition lv1 (i q n : nat) : nat := at_ (fst (levels N root alg count (count - 1 - i))) q n.
  Definition lv2 (i q n : nat) : nat := at_ (snd (levels N root alg count (count - 1 - i))) q n.
  Context (Hc : 2 <= count).
  Context (PL : forall i, 1 <= i < count - 1 -> tidy N (blk i)).
  Context (LAST : forall q, q < N -> untouched (blk (count - 1) q)).

  Lemma live1 i q n : 1 <= i < count - 1 ->
    (lv1 i q n <> 0 <-> q < N /\ n < num_lines (blk i q) /\
       (lv2 (S i) q n <> 0 \/ exists n', n' < num_lines (blk i q) /\ lv2 (S i) q n' <> 0 /\ In n (reducefrom (lines (blk i q) n')))).
  Proof.
    intros Hi. unfold lv1, lv2. replace (count - 1 - i) with (S (count - 1 - S i)) by lia. cbn [levels fst].
    replace (count - 1 - S (count - 1 - S i)) with i by lia. rewrite at_tab.
    destruct (Nat.ltb_spec q N) as [Hq|Hq]; cbn [andb]; [|split; [congruence|lia]].
    destruct (Nat.ltb_spec n (num_lines (blk i q))) as [Hn|Hn]; [|split; [congruence|lia]].
    rewrite (marked_spec N (blk i) (PL i Hi)) by auto. unfold carried.
    set (t := snd (levels N root alg count (count - 1 - S i))).
    assert (X : forall m, (if at_ t q m =? 0 then 0 else 1) <> 0 <-> at_ t q m <> 0).
    { intros m. destruct (Nat.eqb_spec (at_ t q m) 0); split; intros; congruence. }
    split.
    - intros [A|(n' & A & B & C)]; split; auto; split; auto; [left; now apply X|right; exists n'; rewrite <- X; auto].
    - intros (_ & _ & [A|(n' & A & B & C)]); [left; now apply X|right; exists n'; rewrite X; auto].
  Qed.
  Lemma live2 i p x : 1 <= i < count - 1 ->
    (lv2 i p x <> 0 <-> p < N /\ x < num_lines (blk i p) /\
       (lv1 i p x <> 0 \/ exists q n, q < N /\ p <> q /\ In (x, n) (pairs (blk i) p q) /\ lv1 i q n <> 0)).
  Proof.
    intros Hi. unfold lv1, lv2. replace (count - 1 - i) with (S (count - 1 - S i)) by lia. cbn [levels fst snd].
    replace (count - 1 - S (count - 1 - S i)) with i by lia.
    set (v := tab N alg i (marked (blk i) _)).
    replace (0 <? i) with true by (symmetry; apply Nat.ltb_lt; lia). rewrite at_tab.
    destruct (Nat.ltb_spec p N) as [Hp|Hp]; cbn [andb]; [|split; [congruence|lia]].
    destruct (Nat.ltb_spec x (num_lines (blk i p))) as [Hx|Hx]; [|split; [congruence|lia]].
    rewrite (sent_needed_spec N (blk i) (PL i Hi)) by auto. tauto.
  Qed.
  Lemma live_12 i q n : 1 <= i < count - 1 -> lv1 i q n <> 0 -> lv2 i q n <> 0.
  Proof. intros Hi H. apply live2; auto. pose proof H as H'. apply live1 in H'; auto. tauto. Qed.
  Lemma live_recv i q n : 1 <= i < count - 1 -> recvfrom (lines (blk i q) n) <> [] -> lv2 i q n <> 0 -> lv1 i q n <> 0.
  Proof.
    intros Hi R H. apply live2 in H; auto. destruct H as (Hq & Hn & [H|(p & m & Hp & D & I & H)]); auto.
    exfalso. apply pair_in in I. destruct I as [I _]. apply in_sent in I. destruct I as (_ & e & I & _).
    rewrite (pl_apart _ _ (PL i Hi) q n Hq Hn R) in I. destruct I.
  Qed.
  Lemma fold_id {A B} (f : A -> B -> A) l a : (forall x, f a x = a) -> fold_left f l a = a.
  Proof. intros H. induction l as [|x l IH]; auto. cbn. now rewrite H. Qed.
  Lemma live_last q n : lv2 (count - 1) q n <> 0 <->
    q = root /\ q < N /\ n < num_lines (blk (count - 1) q) /\ existsb is_user (sendto (lines (blk (count - 1) q) n)) = true.
  Proof.
    unfold lv2. rewrite Nat.sub_diag. cbn [levels snd]. rewrite at_tab.
    destruct (Nat.ltb_spec q N) as [Hq|Hq]; cbn [andb]; [|split; [congruence|lia]].
    destruct (Nat.ltb_spec n (num_lines (blk (count - 1) q))) as [Hn|Hn]; [|split; [congruence|lia]].
    unfold marked. rewrite fold_id.
    - unfold wanted. destruct (Nat.eqb_spec q root), (existsb is_user (sendto (lines (blk (count - 1) q) n))); cbn; split; try congruence; intuition congruence.
    - intros j. unfold mark_line. destruct (LAST q Hq j) as (_ & -> & ->). cbn. now destruct (_ =? 0).
  Qed.
  (* block 0 without reductions *)
  Lemma live_first q n : q < N -> n < num_lines (blk 0 q) -> (forall n, reducefrom (lines (blk 0 q) n) = [] /\ copyreducefrom (lines (blk 0 q) n) = []) ->
    lv2 1 q n <> 0 -> lv2 0 q n <> 0.
  Proof.
    intros Hq Hn R H. unfold lv2 in *. replace (count - 1 - 0) with (S (count - 1 - 1)) by lia. cbn [levels snd].
    replace (count - 1 - S (count - 1 - 1)) with 0 by lia. cbn [Nat.ltb Nat.leb]. rewrite at_tab.
    apply Nat.ltb_lt in Hq, Hn. rewrite Hq, Hn. cbn [andb]. unfold marked. rewrite fold_id.
    - unfold carried. destruct (Nat.eqb_spec (at_ (snd (levels N root alg count (count - 1 - 1))) q n) 0); congruence.
    - intros j. unfold mark_line. destruct (R j) as (-> & ->). cbn. now destruct (_ =? 0).
  Qed.

  (* ----- the pruned schedule ----- *)
  Definition kept (i p q : nat) : bool :=
    if i <? count - 1 then existsb (fun n => negb (lv1 i q n =? 0)) (recv_lines (blk i) q p) else true.
  Definition trim_block (live : nat -> nat) (b : block) : block :=
    Block (num_lines b) (fun n => let l := lines b n in
      if live n =? 0 then Line (frac l) (sendto l) (recvfrom l) [] [] else l).
  Definition trimmed (q : nat) : list block := map (fun i => trim_block (lv2 i q) (blk i q)) (seq 0 count).

  (* all lines of a message are needed, or none *)
  Definition whole_messages : Prop := forall i p q n n', 1 <= i < count - 1 -> p < N -> q < N -> p <> q ->
    In n (recv_lines (blk i) q p) -> In n' (recv_lines (blk i) q p) -> lv1 i q n <> 0 -> lv1 i q n' <> 0.

  Lemma backward_at i q : i < count -> nth i (backward N root alg count q) empty_block =
    prune_block (blk i) (middle_block count i) (fst (levels N root alg count (count - 1 - i))) (snd (levels N root alg count (count - 1 - i))) q.
  Proof.
    clear Hc PL LAST. intros Hi. unfold backward.
    set (f := fun i => let '(v1, v2) := levels N root alg count (count - 1 - i) in prune_block (blk i) (middle_block count i) v1 v2 q).
    rewrite (nth_indep _ empty_block (f 0)) by (rewrite map_length, seq_length; lia).
    rewrite map_nth, seq_nth by lia. unfold f. cbn [plus]. now destruct (levels N root alg count (count - 1 - i)).
  Qed.
  Lemma trimmed_at i q : i < count -> nth i (trimmed q) empty_block = trim_block (lv2 i q) (blk i q).
  Proof.
    clear Hc PL LAST. intros Hi. unfold trimmed. set (f := fun i => trim_block (lv2 i q) (blk i q)).
    rewrite (nth_indep _ empty_block (f 0)) by (rewrite map_length, seq_length; lia). now rewrite map_nth, seq_nth by lia.
  Qed.
  Lemma backward_length q : length (backward N root alg count q) = count.
  Proof. unfold backward. now rewrite map_length, seq_length. Qed.
  Lemma trimmed_length q : length (trimmed q) = count.
  Proof. unfold trimmed. now rewrite map_length, seq_length. Qed.

  Lemma trim_recv live b n : recvfrom (lines (trim_block live b) n) = recvfrom (lines b n).
  Proof. cbn. now destruct (live n =? 0). Qed.
  Lemma trim_send live b n : sendto (lines (trim_block live b) n) = sendto (lines b n).
  Proof. cbn. now destruct (live n =? 0). Qed.
  Lemma trim_frac live b n : frac (lines (trim_block live b) n) = frac (lines b n).
  Proof. cbn. now destruct (live n =? 0). Qed.

  Context (WHOLE : whole_messages).
  Lemma kept_eq i p q n : 1 <= i < count - 1 -> p < N -> q < N -> p <> q -> In n (recv_lines (blk i) q p) ->
    kept i p q = negb (lv1 i q n =? 0).
  Proof.
    intros Hi Hp Hq D I. unfold kept. replace (i <? count - 1) with true by (symmetry; apply Nat.ltb_lt; lia).
    destruct (Nat.eqb_spec (lv1 i q n) 0) as [Z|Z]; cbn [negb].
    - apply not_true_is_false. intros X. apply existsb_exists in X. destruct X as (n' & I' & X). apply negb_true_iff, Nat.eqb_neq in X.
      exact (WHOLE i p q n' n Hi Hp Hq D I' I X Z).
    - apply existsb_exists. exists n. split; auto. apply negb_true_iff. now apply Nat.eqb_neq.
  Qed.
  Lemma pruned_ok i q : 1 <= i < count -> q < N -> well_matched N (blk i) ->
    prunes (kept i) q (nth i (trimmed q) empty_block) (nth i (backward N root alg count q) empty_block).
  Proof.
    intros Hi Hq WM. rewrite backward_at, trimmed_at by lia.
    set (v1 := fst (levels N root alg count (count - 1 - i))). set (v2 := snd (levels N root alg count (count - 1 - i))).
    assert (RG : forall n e, n < num_lines (blk i q) -> In e (sendto (lines (blk i q) n) ++ recvfrom (lines (blk i q) n)) -> (-1 <= fst e)%Z).
    { intros n e Hn I. destruct WM as [_ W]. destruct (W q n Hq Hn) as [R _]. rewrite Forall_forall in R. apply R in I. lia. }
    split; try (intros n Hn); change (num_lines (trim_block (lv2 i q) (blk i q))) with (num_lines (blk i q)) in *; auto.
    - rewrite trim_frac. cbn. unfold prune_line. now destruct (_ =? 0).
    - cbn. unfold prune_line, lv2. fold v2. now destruct (at_ v2 q n =? 0).
    - cbn. unfold prune_line, lv2. fold v2. now destruct (at_ v2 q n =? 0).
    - intros Hlt I. apply (RG n Hn Hlt). cbn in I. now destruct (lv2 i q n =? 0).
    - exists (negb (lv2 i q n =? 0)). rewrite trim_recv. split.
      + cbn. unfold prune_line, lv2. fold v2. now destruct (at_ v2 q n =? 0).
      + intros p e I E. destruct (Nat.eq_dec i (count - 1)) as [->|D].
        * destruct (LAST q Hq n) as (R & _). rewrite R in I. destruct I.
        * assert (Hi' : 1 <= i < count - 1) by lia. pose proof (PL i Hi') as PLi.
          destruct (entry_node N (blk i) PLi q n e Hq Hn) as (_ & A & B); [apply in_or_app; now right|].
          rewrite (node_partner p e E) in A, B.
          rewrite (kept_eq i p q n); auto; [|apply in_recv; eauto]. f_equal.
          destruct (Nat.eqb_spec (lv2 i q n) 0) as [Z|Z], (Nat.eqb_spec (lv1 i q n) 0) as [Z'|Z']; auto; exfalso.
          -- now apply (live_12 i q n Hi') in Z'.
          -- apply (live_recv i q n Hi') in Z; auto. intros X. rewrite X in I. destruct I.
    - rewrite trim_send. cbn. unfold prune_line. destruct (Nat.eq_dec i (count - 1)) as [->|D].
      + exists (fun _ => true). rewrite map_id. split.
        * unfold middle_block. rewrite Nat.ltb_irrefl, andb_false_r. now destruct (_ =? 0).
        * intros p e _ _. unfold kept. now rewrite Nat.ltb_irrefl.
      + assert (Hi' : 1 <= i < count - 1) by lia. pose proof (PL i Hi') as PLi.
        replace (middle_block count i) with true by (unfold middle_block; symmetry; apply andb_true_iff; split; apply Nat.ltb_lt; lia).
        exists (fun e => negb (answer (blk i) v1 q (partner_of e) n =? 0)). split.
        * unfold prune_sends. transitivity (map (fun e => if answer (blk i) v1 q (partner_of e) n =? 0 then strike e else e) (sendto (lines (blk i q) n))).
          -- now destruct (_ =? 0).
          -- apply map_ext. intros e. now destruct (_ =? 0).
        * intros p e I E. rewrite (node_partner p e E).
          destruct (entry_node N (blk i) PLi q n e Hq Hn) as (_ & A & B); [apply in_or_app; now left|].
          rewrite (node_partner p e E) in A, B.
          destruct (pair_of_sent N (blk i) PLi q p n) as (m & Hm); auto; [apply in_sent; eauto|].
          rewrite (answer_in N (blk i) PLi v1 q p n m) by auto. apply pair_in in Hm. now rewrite (kept_eq i q p m) by (auto; tauto).
  Qed.
End Levels.
