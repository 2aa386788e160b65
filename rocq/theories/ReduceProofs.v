(* Stages that receive from several partners into separate groups of lines
   and reduce: reduce_scatter_core and the middle part of allreduce_core. *)
From Coq Require Import Permutation.
From Verif Require Import Base SchedModel SchedSpec SchedProofs RecursiveModel RecursiveArith CombineProofs RecursiveProofs.

Local Ltac Zify.zify_post_hook ::= idtac.

Lemma slot_eq N l l' a b : l < N -> l' < N -> l + a * N = l' + b * N -> l = l' /\ a = b.
Proof.
  intros H H' E.
  assert (a = b).
  { rewrite <- (node_div N a l), <- (node_div N b l') by lia. f_equal. lia. }
  subst; split; lia.
Qed.

Section Slots.
  Context (g p N NL len : nat) (Hg : 0 < g).
  Let G := g * (p + 1).
  Context (HN : N mod G = 0) (base slot : nat -> nat).
  Context (Hbase : forall q, q < N -> base q + len <= N).
  Context (slot_inj : forall i j, i < p -> j < p -> slot i = slot j -> i = j).
  Context (slot_fit : forall i, i < p -> (slot i + 1) * N <= NL).
  Context (blk : nat -> block) (Hnum : forall q, num_lines (blk q) = NL).
  Context (hit : forall q i l, q < N -> i < p -> base q <= l < base q + len ->
             recvfrom (lines (blk q) (l + slot i * N)) = [(zn (partner G g q i), l)]).
  Context (miss : forall q n, q < N ->
             (forall i l, i < p -> base q <= l < base q + len -> n <> l + slot i * N) ->
             recvfrom (lines (blk q) n) = []).

  Lemma slot_dec q n :
    (exists i l, i < p /\ base q <= l < base q + len /\ n = l + slot i * N) \/
    (forall i l, i < p -> base q <= l < base q + len -> n <> l + slot i * N).
  Proof.
    enough (H : forall k, (exists i l, i < k /\ base q <= l < base q + len /\ n = l + slot i * N) \/
                (forall i l, i < k -> base q <= l < base q + len -> n <> l + slot i * N)) by apply H.
    induction k as [|k [(i & l & H)|H]]; [right; intros; lia| |].
    - left; exists i, l. lia.
    - destruct (le_lt_dec (base q + slot k * N) n) as [A|A]; [destruct (le_lt_dec (base q + slot k * N + len) n) as [B|B]|].
      + right. intros i l Hi Hl. destruct (Nat.eq_dec i k) as [->|]; [lia|apply H; lia].
      + left. exists k, (n - slot k * N). lia.
      + right. intros i l Hi Hl. destruct (Nat.eq_dec i k) as [->|]; [lia|apply H; lia].
  Qed.

  Lemma slots_recv_iff q n p0 : q < N ->
    existsb (is_node p0) (recvfrom (lines (blk q) n)) = true <->
    exists i, i < p /\ partner G g q i = p0 /\ base q + slot i * N <= n < base q + slot i * N + len.
  Proof.
    intros Hq. split.
    - intros H. destruct (slot_dec q n) as [(i & l & Hi & Hl & ->)|M].
      + rewrite hit in H by assumption. cbn [existsb] in H. rewrite is_node_zn, orb_false_r in H.
        apply Nat.eqb_eq in H. exists i. split; [assumption|]. split; [assumption|]. lia.
      + rewrite miss in H by assumption. discriminate.
    - intros (i & Hi & <- & Hn). replace n with ((n - slot i * N) + slot i * N) by lia.
      rewrite hit by (auto; lia). cbn [existsb]. rewrite is_node_zn, Nat.eqb_refl. reflexivity.
  Qed.

  Lemma partner_lt q i : q < N -> i < p -> partner G g q i < N.
  Proof.
    intros Hq Hi. destruct (partner_peer g p Hg q i Hi) as (A & _).
    apply group_lt with G q; auto. apply (step_pos g p Hg).
  Qed.

  Lemma slot_range_fits q i : q < N -> i < p -> base q + slot i * N + len <= NL.
  Proof. intros Hq Hi. specialize (Hbase q Hq). specialize (slot_fit i Hi). lia. Qed.

  Lemma slots_recv_lines q i : q < N -> i < p ->
    recv_lines blk q (partner G g q i) = seq (base q + slot i * N) len.
  Proof.
    intros Hq Hi. assert (F := slot_range_fits q i Hq Hi). apply recv_lines_seq; rewrite Hnum; [assumption|].
    intros n Hn. rewrite slots_recv_iff by assumption. split; [|eauto].
    intros (j & Hj & E & R). apply (partner_inj g p Hg) in E; auto. subst j. exact R.
  Qed.
  Lemma slots_recv_lines_none q p0 : q < N -> (forall i, i < p -> partner G g q i <> p0) ->
    recv_lines blk q p0 = [].
  Proof.
    intros Hq H. apply recv_lines_nil. intros n Hn. apply not_true_is_false. intros E.
    apply slots_recv_iff in E; [|assumption]. destruct E as (i & Hi & E & _). eapply H; eauto.
  Qed.

  Lemma partner_dec q p0 : (exists i, i < p /\ partner G g q i = p0) \/ (forall i, i < p -> partner G g q i <> p0).
  Proof.
    destruct (Nat.eq_dec (p0 / G) (q / G)) as [A|A];
      [destruct (Nat.eq_dec (p0 mod g) (q mod g)) as [B|B]; [destruct (Nat.eq_dec p0 q) as [C|C]|]|].
    - right. intros i Hi <-. destruct (partner_peer g p Hg q i Hi) as (_ & _ & D & _). contradiction.
    - left. apply partner_surj; auto.
    - right. intros i Hi <-. destruct (partner_peer g p Hg q i Hi) as (_ & D & _). contradiction.
    - right. intros i Hi <-. destruct (partner_peer g p Hg q i Hi) as (D & _). contradiction.
  Qed.

  Lemma slots_no_self q n e : q < N -> In e (recvfrom (lines (blk q) n)) -> is_node q e = false.
  Proof.
    intros Hq He. destruct (slot_dec q n) as [(i & l & Hi & Hl & ->)|M].
    - rewrite hit in He by assumption. destruct He as [<-|[]]. rewrite is_node_zn. apply Nat.eqb_neq.
      destruct (partner_peer g p Hg q i Hi) as (_ & _ & D & _). exact D.
    - rewrite miss in He by assumption. destruct He.
  Qed.

  Lemma slots_simple q : q < N -> simple_recv N blk q.
  Proof.
    intros Hq p0 Hp D. split.
    - destruct (partner_dec q p0) as [(i & Hi & <-)|H].
      + rewrite slots_recv_lines by assumption. exists (base q + slot i * N). rewrite seq_length; reflexivity.
      + rewrite slots_recv_lines_none by assumption. exists 0; reflexivity.
    - unfold reduces_into.
      remember (recvfrom (lines (blk q) (last (recv_lines blk q p0) 0))) as rf eqn:E.
      destruct rf as [|e r]; [reflexivity|]. eapply slots_no_self; [exact Hq|rewrite <- E; now left].
  Qed.

  Context (soff : nat).
  Context (Hsent : forall q i, q < N -> i < p ->
             sent_lines blk (partner G g q i) q = seq (base q + soff) len).
  Context {V : Type} (op : V -> V -> V) (st : nat -> nat -> V).

  Lemma slots_received_hit q i l : q < N -> i < p -> base q <= l < base q + len ->
    received op N blk st q (l + slot i * N) = st (partner G g q i) (l + soff).
  Proof.
    intros Hq Hi Hl. specialize (Hbase q Hq) as Bq.
    rewrite (received_hit op N blk st q (partner G g q i) _ (base q + slot i * N) len).
    - rewrite (message_nth op blk st _ q (base q + soff) len) by (auto; lia). f_equal. lia.
    - apply partner_lt; assumption.
    - assumption.
    - apply partner_peer; assumption.
    - apply slots_simple; assumption.
    - apply slots_recv_lines; assumption.
    - lia.
    - intros p' Hp' D1 D2 I. apply filter_In in I. destruct I as [_ I].
      apply slots_recv_iff in I; [|assumption]. destruct I as (j & Hj & E & R).
      apply D2. rewrite <- E. f_equal.
      destruct (slot_eq N l (l + slot i * N - slot j * N) (slot i) (slot j)) as (_ & X); try lia.
      symmetry. apply slot_inj; assumption.
  Qed.
  Lemma slots_received_miss q n : q < N ->
    (forall i l, i < p -> base q <= l < base q + len -> n <> l + slot i * N) ->
    received op N blk st q n = st q n.
  Proof.
    intros Hq H. apply received_miss; [apply slots_simple; assumption|].
    intros p' Hp' D1 I. apply filter_In in I. destruct I as [_ I].
    rewrite miss in I by assumption. discriminate.
  Qed.
End Slots.

Lemma fold_map {A V} (op : V -> V -> V) (m : A -> V) l a :
  fold_left (fun a r => op a (m r)) l a = fold_left op (map m l) a.
Proof. revert a; induction l; intros; cbn; auto. Qed.

Lemma combine_reduce {V} (op : V -> V -> V) (m : nat -> V) l n :
  Some (fold_left (fun a r => op a (m r)) l (m n)) = combine op (m n :: map m l).
Proof. rewrite fold_map. reflexivity. Qed.

Section RS.
  Context (g p N : nat) (Hg : 0 < g) (Hp : 0 < p) (first last : bool).
  Let G := g * (p + 1).
  Context (HN : N mod G = 0).

  Definition rs_soff : nat := if first then 0 else 2 * N.
  Definition rs_dest : nat := if last then 1 else 2.
  Definition rs_slot (i : nat) : nat :=
    if last then if i =? p - 1 then 1 else 3 + i else if first then 2 + i else 3 + i.
  Definition rs_rlist (l : nat) : list nat :=
    if last then
      if first then l :: map (fun i => l + (2 + i) * N) (seq 1 (p - 1))
      else map (fun i => l + (2 + i) * N) (seq 0 p)
    else
      if first then l :: map (fun i => l + (2 + i) * N) (seq 1 (p - 1))
      else map (fun i => l + (3 + i) * N) (seq 0 p).

  Lemma G_div : G / (p + 1) = g.
  Proof. unfold G. apply Nat.div_mul. lia. Qed.

  Lemma in_rs_writes q n f : In (n, f) (rs_writes N G p first last q) <->
    exists l, l / G = q / G /\
      ((l / g <> q / g /\ n = l + rs_soff /\ f = Send [(zn (l / g * g + q mod g), l)]) \/
       (l / g = q / g /\ exists i, i < p /\ n = l + rs_slot i * N /\ f = Recv [(zn (partner G g q i), l)]) \/
       (l / g = q / g /\ n = l + rs_dest * N /\ f = Reduce (rs_rlist l))).
  Proof.
    unfold rs_writes. rewrite G_div, in_flat_map.
    assert (P : forall l, In l (seq (q / G * G) G) <-> l / G = q / G).
    { intros l. rewrite in_seq. apply group_range. apply (step_pos g p Hg). }
    unfold rs_slot, rs_dest, rs_soff, rs_rlist.
    split.
    - intros (l & Hl & H). apply P in Hl. exists l. split; [assumption|].
      destruct (Nat.eqb_spec (l / g) (q / g)) as [E|E]; cbn [negb] in H.
      + right. destruct last; cbn [negb] in H.
        * repeat (apply in_app_or in H; destruct H as [H|H]).
          -- destruct H as [H|[]]. injection H as <- <-. left. split; [assumption|].
             exists (p - 1). rewrite Nat.eqb_refl. split; [lia|]. split; [lia|reflexivity].
          -- apply in_map_iff in H. destruct H as (i & H & Hi). apply in_seq in Hi. injection H as <- <-.
             left. split; [assumption|]. exists i. replace (i =? p - 1) with false by (symmetry; apply Nat.eqb_neq; lia).
             split; [lia|]. split; reflexivity.
          -- destruct H as [H|[]]. injection H as <- <-. right. split; [assumption|]. split; [lia|].
             destruct first; reflexivity.
        * destruct first; cbn [negb] in H; apply in_app_or in H; destruct H as [H|H].
          -- apply in_map_iff in H. destruct H as (i & H & Hi). apply in_seq in Hi. injection H as <- <-.
             left. split; [assumption|]. exists i. split; [lia|]. split; reflexivity.
          -- destruct H as [H|[]]. injection H as <- <-. right. split; [assumption|]. split; reflexivity.
          -- apply in_map_iff in H. destruct H as (i & H & Hi). apply in_seq in Hi. injection H as <- <-.
             left. split; [assumption|]. exists i. split; [lia|]. split; reflexivity.
          -- destruct H as [H|[]]. injection H as <- <-. right. split; [assumption|]. split; reflexivity.
      + destruct H as [H|[]]. injection H as <- <-. left. split; [assumption|]. split; [reflexivity|].
        rewrite (partner_target g p Hg) by assumption. reflexivity.
    - intros (l & Hl & H). exists l. split; [apply P; assumption|].
      destruct H as [(E & -> & ->)|[(E & i & Hi & -> & ->)|(E & -> & ->)]].
      + apply Nat.eqb_neq in E as E'. rewrite E'. left.
        fold G. rewrite (partner_target g p Hg) by assumption. reflexivity.
      + rewrite E, Nat.eqb_refl. cbn [negb]. destruct last; cbn [negb].
        * destruct (Nat.eqb_spec i (p - 1)) as [->|D].
          -- apply in_or_app; left. left. f_equal. lia.
          -- apply in_or_app; right. apply in_or_app; left. apply in_map_iff. exists i.
             split; [reflexivity|apply in_seq; lia].
        * destruct first; cbn [negb]; apply in_or_app; left; apply in_map_iff; exists i;
            (split; [reflexivity|apply in_seq; lia]).
      + rewrite E, Nat.eqb_refl. cbn [negb]. destruct last; cbn [negb].
        * apply in_or_app; right. apply in_or_app; right. left. f_equal; [lia|destruct first; reflexivity].
        * destruct first; cbn [negb]; apply in_or_app; right; left; reflexivity.
  Qed.

  Context (b : nat -> line) (Hb : blanks b).
  Let L q := apply_writes b (rs_writes N G p first last q).
  Let NL := (if last then 2 + p else 3 + p) * N.
  Let base q := q / g * g.

  Lemma rs_g_mod : N mod g = 0.
  Proof. apply mod_of_factor with (p + 1); [assumption|lia|exact HN]. Qed.
  Lemma rs_base q : q < N -> base q + g <= N.
  Proof. intros Hq. apply group_fits; [assumption|apply rs_g_mod|assumption]. Qed.
  Lemma rs_line_lt q l : q < N -> l / G = q / G -> l < N.
  Proof. intros Hq H. apply group_lt with G q; auto. apply (step_pos g p Hg). Qed.
  Lemma rs_group q l : l / g = q / g -> l / G = q / G.
  Proof. intros H. apply (small_in_big g p Hg). assumption. Qed.

  Lemma rs_slot_inj i j : i < p -> j < p -> rs_slot i = rs_slot j -> i = j.
  Proof.
    intros Hi Hj. unfold rs_slot. destruct last, first;
      try destruct (Nat.eqb_spec i (p - 1)); try destruct (Nat.eqb_spec j (p - 1)); lia.
  Qed.
  Lemma rs_slot_fit i : i < p -> (rs_slot i + 1) * N <= NL.
  Proof.
    intros Hi. unfold rs_slot, NL. destruct last, first; try destruct (Nat.eqb_spec i (p - 1));
      apply Nat.mul_le_mono_r; lia.
  Qed.

  Lemma rs_hit q i l : q < N -> i < p -> base q <= l < base q + g ->
    recvfrom (L q (l + rs_slot i * N)) = [(zn (partner G g q i), l)].
  Proof.
    intros Hq Hi Hl. apply (group_range g q Hg) in Hl. apply recvfrom_some.
    - apply in_rs_writes. exists l. split; [apply rs_group; assumption|]. right; left. eauto.
    - intros v Hv. apply in_rs_writes in Hv. destruct Hv as (l' & Hl' & [(_ & _ & [=])|[(E & j & Hj & En & Ev)|(_ & _ & [=])]]).
      assert (A := rs_line_lt q l Hq (rs_group q l Hl)). assert (A' := rs_line_lt q l' Hq Hl').
      destruct (slot_eq N l l' _ _ A A' En) as (<- & S). apply rs_slot_inj in S; auto. subst j. congruence.
  Qed.
  Lemma rs_miss q n : q < N -> (forall i l, i < p -> base q <= l < base q + g -> n <> l + rs_slot i * N) ->
    recvfrom (L q n) = [].
  Proof.
    intros Hq H. unfold L. rewrite recvfrom_none; [destruct (Hb n) as (f & ->); reflexivity|].
    intros v Hv. apply in_rs_writes in Hv. destruct Hv as (l' & Hl' & [(_ & _ & [=])|[(E & j & Hj & En & Ev)|(_ & _ & [=])]]).
    eapply H; [exact Hj| |exact En]. apply group_range; assumption.
  Qed.
  Lemma rs_send_hit q l : q < N -> l / G = q / G -> l / g <> q / g ->
    sendto (L q (l + rs_soff)) = [(zn (l / g * g + q mod g), l)].
  Proof.
    intros Hq Hl D. apply sendto_some.
    - apply in_rs_writes. exists l. split; [assumption|]. left. auto.
    - intros v Hv. apply in_rs_writes in Hv. destruct Hv as (l' & Hl' & [(_ & En & Ev)|[(E & j & Hj & En & [=])|(_ & _ & [=])]]).
      assert (l = l') by lia. subst. congruence.
  Qed.
  Lemma rs_send_miss q n : q < N -> (forall l, l / G = q / G -> l / g <> q / g -> n <> l + rs_soff) ->
    sendto (L q n) = [].
  Proof.
    intros Hq H. unfold L. rewrite sendto_none; [destruct (Hb n) as (f & ->); reflexivity|].
    intros v Hv. apply in_rs_writes in Hv. destruct Hv as (l' & Hl' & [(D & En & Ev)|[(E & j & Hj & En & [=])|(_ & _ & [=])]]).
    eapply H; eauto.
  Qed.
  Lemma rs_reduce_hit q l : q < N -> l / g = q / g -> reducefrom (L q (l + rs_dest * N)) = rs_rlist l.
  Proof.
    intros Hq Hl. apply reducefrom_some.
    - apply in_rs_writes. exists l. split; [apply rs_group; assumption|]. right; right. auto.
    - intros v Hv. apply in_rs_writes in Hv. destruct Hv as (l' & Hl' & [(D & En & [=])|[(E & j & Hj & En & [=])|(_ & En & Ev)]]).
      assert (l = l') by lia. subst. congruence.
  Qed.
  Lemma rs_reduce_miss q n : q < N -> (forall l, l / g = q / g -> n <> l + rs_dest * N) ->
    reducefrom (L q n) = [].
  Proof.
    intros Hq H. unfold L. rewrite reducefrom_none; [destruct (Hb n) as (f & ->); reflexivity|].
    intros v Hv. apply in_rs_writes in Hv. destruct Hv as (l' & Hl' & [(D & En & [=])|[(E & j & Hj & En & [=])|(E & En & Ev)]]).
    eapply H; eauto.
  Qed.
  Lemma rs_no_copyreduce q n : copyreducefrom (L q n) = [].
  Proof.
    unfold L. rewrite copyreducefrom_none; [destruct (Hb n) as (f & ->); reflexivity|].
    intros v Hv. apply in_rs_writes in Hv.
    destruct Hv as (l' & Hl' & [(D & En & [=])|[(E & j & Hj & En & [=])|(E & En & [=])]]).
  Qed.

  Context (blk : nat -> block) (Hblk : forall q, blk q = Block NL (L q)).

  Lemma rs_NL : 3 * N <= NL.
  Proof. unfold NL. apply Nat.mul_le_mono_r. destruct last; lia. Qed.
  Lemma rs_soff_le : rs_soff <= 2 * N.
  Proof. unfold rs_soff; destruct first; lia. Qed.

  Lemma rs_sent t q : t < N -> q < N -> q / G = t / G -> q mod g = t mod g -> q <> t ->
    sent_lines blk t q = seq (base q + rs_soff) g.
  Proof.
    intros Ht Hq E1 E2 D.
    assert (D' : q / g <> t / g) by (intros X; apply D; apply same_node with g; auto).
    assert (M := Nat.mod_upper_bound t g ltac:(lia)).
    assert (B := rs_base q Hq). assert (X1 := rs_NL). assert (X2 := rs_soff_le).
    apply sent_lines_seq; rewrite ?Hblk; cbn [num_lines lines].
    - unfold base in *; glia.
    - intros n Hn Hr. replace n with ((n - rs_soff) + rs_soff) by (unfold base in *; glia).
      assert (E : (n - rs_soff) / g = q / g) by (apply group_range; [assumption|unfold base in *; glia]).
      rewrite rs_send_hit; [|assumption|rewrite <- E1; apply rs_group; assumption|congruence].
      cbn [filter]. rewrite is_node_zn, E, <- E2, node_eq, Nat.eqb_refl by assumption. reflexivity.
    - intros n Hn Hr.
      destruct (le_lt_dec rs_soff n) as [A|A]; [|rewrite rs_send_miss; auto; intros; glia].
      destruct (Nat.eq_dec ((n - rs_soff) / G) (t / G)) as [F1|F1];
        [destruct (Nat.eq_dec ((n - rs_soff) / g) (t / g)) as [F2|F2]|].
      + rewrite rs_send_miss; auto. intros l Hl Dl ->. rewrite Nat.add_sub in F2. contradiction.
      + replace n with ((n - rs_soff) + rs_soff) by (unfold base in *; glia). rewrite rs_send_hit by assumption.
        cbn [filter]. rewrite is_node_zn.
        destruct (Nat.eqb_spec ((n - rs_soff) / g * g + t mod g) q) as [F3|F3]; [|reflexivity].
        exfalso. apply Hr.
        assert (X : (n - rs_soff) / g = q / g) by (rewrite <- F3; symmetry; apply node_div; assumption).
        apply (group_range g q Hg) in X. unfold base. glia.
      + rewrite rs_send_miss; auto. intros l Hl Dl ->. rewrite Nat.add_sub in F1. contradiction.
  Qed.

  Lemma rs_num q : num_lines (blk q) = NL.
  Proof. rewrite Hblk; reflexivity. Qed.
  Lemma rs_hit' q i l : q < N -> i < p -> base q <= l < base q + g ->
    recvfrom (lines (blk q) (l + rs_slot i * N)) = [(zn (partner G g q i), l)].
  Proof. rewrite Hblk. apply rs_hit. Qed.
  Lemma rs_miss' q n : q < N -> (forall i l, i < p -> base q <= l < base q + g -> n <> l + rs_slot i * N) ->
    recvfrom (lines (blk q) n) = [].
  Proof. rewrite Hblk. apply rs_miss. Qed.
  Lemma rs_sent' q i : q < N -> i < p -> sent_lines blk (partner G g q i) q = seq (base q + rs_soff) g.
  Proof.
    intros Hq Hi. destruct (partner_peer g p Hg q i Hi) as (A & B & C & _).
    apply rs_sent; auto. apply (partner_lt g p N Hg HN); assumption.
  Qed.

  Context {V : Type} (op : V -> V -> V) (st : nat -> nat -> V).

  Lemma rs_received q i l : q < N -> i < p -> l / g = q / g ->
    received op N blk st q (l + rs_slot i * N) = st (partner G g q i) (l + rs_soff).
  Proof.
    intros Hq Hi Hl.
    apply (slots_received_hit g p N NL g Hg HN base rs_slot rs_base rs_slot_inj rs_slot_fit blk rs_num
             rs_hit' rs_miss' rs_soff rs_sent' op st); auto.
    apply group_range; assumption.
  Qed.
  Lemma rs_received_other q l c : q < N -> l / g = q / g -> (forall i, i < p -> rs_slot i <> c) ->
    received op N blk st q (l + c * N) = st q (l + c * N).
  Proof.
    intros Hq Hl Hc.
    apply (slots_received_miss g p N NL g Hg HN base rs_slot rs_base rs_slot_inj rs_slot_fit blk rs_num
             rs_hit' rs_miss' op st); auto.
    intros i l' Hi Hl' E. apply (group_range g q Hg) in Hl'.
    destruct (slot_eq N l l' c (rs_slot i)) as (_ & X); auto.
    - apply rs_line_lt with q; auto using rs_group.
    - apply rs_line_lt with q; auto using rs_group.
    - apply (Hc i Hi). auto.
  Qed.

  Lemma rs_received_own q l : q < N -> l / g = q / g ->
    received op N blk st q (l + rs_soff) = st q (l + rs_soff).
  Proof.
    intros Hq Hl. replace rs_soff with ((if first then 0 else 2) * N) by (unfold rs_soff; destruct first; lia).
    apply rs_received_other; auto. intros i Hi. unfold rs_slot.
    destruct last, first; try destruct (Nat.eqb_spec i (p - 1)); lia.
  Qed.

  Lemma rs_rlist_slots l r : In r (rs_rlist l) -> exists c, c <> rs_dest /\ r = l + c * N.
  Proof.
    unfold rs_rlist, rs_dest. destruct last, first; intros H;
      try (destruct H as [<-|H]; [exists 0; lia|]);
      apply in_map_iff in H; destruct H as (i & <- & Hi); apply in_seq in Hi;
      eexists; (split; [|reflexivity]); lia.
  Qed.

  Context (op_assoc : forall a b c, op a (op b c) = op (op a b) c) (op_comm : forall a b, op a b = op b a).

  Lemma rs_stage_value q l : q < N -> l / g = q / g ->
    Some (stage op N blk st q (l + rs_dest * N)) =
    combine op (map (fun u => st u (l + rs_soff)) (q :: map (partner G g q) (seq 0 p))).
  Proof.
    intros Hq Hl.
    assert (Ll : l < N) by (apply rs_line_lt with q; auto using rs_group).
    unfold stage. rewrite copyreduced_id by (intros; rewrite Hblk; apply rs_no_copyreduce).
    rewrite reduced_at.
    2:{ rewrite rs_num. assert (X := rs_NL). unfold rs_dest; destruct last; lia. }
    2:{ rewrite Hblk; cbn [lines]. fold (L q). rewrite rs_reduce_hit by assumption.
        intros r Hr. apply rs_rlist_slots in Hr. destruct Hr as (c & Hc & ->). split.
        - intros E. apply slot_eq in E; auto. tauto.
        - apply rs_reduce_miss; auto. intros l' Hl' E. apply slot_eq in E; auto; [tauto|].
          apply rs_line_lt with q; auto using rs_group. }
    rewrite Hblk; cbn [lines]. fold (L q). rewrite rs_reduce_hit by assumption.
    rewrite combine_reduce. set (rcv := received op N blk st q).
    set (O := st q (l + rs_soff)). set (R i := st (partner G g q i) (l + rs_soff)).
    transitivity (combine op (O :: map R (seq 0 p))).
    2:{ cbn [map]. rewrite map_map. reflexivity. }
    assert (RO : rcv (l + rs_soff) = O) by (apply rs_received_own; assumption).
    assert (RR : forall i, i < p -> rcv (l + rs_slot i * N) = R i) by (intros; apply rs_received; assumption).
    clearbody rcv O R. clear - RO RR Hp op_assoc op_comm.
    unfold rs_dest, rs_rlist, rs_slot, rs_soff in *.
    assert (Sp : p = S (p - 1)) by lia.
    destruct last, first.
    - (* last, first *)
      replace (rcv (l + 1 * N)) with (R (p - 1)) by (rewrite <- RR, Nat.eqb_refl by lia; reflexivity).
      cbn [map]. replace (rcv l) with O by (rewrite <- RO; f_equal; lia). rewrite map_map.
      replace (map (fun i => rcv (l + (2 + i) * N)) (seq 1 (p - 1))) with (map R (seq 0 (p - 1))).
      2:{ rewrite <- seq_shift, map_map. apply map_ext_in. intros i Hi. apply in_seq in Hi.
          rewrite <- RR by lia. replace (i =? p - 1) with false by (symmetry; apply Nat.eqb_neq; lia).
          f_equal; lia. }
      rewrite Sp at 3. rewrite seq_S, map_app. cbn [Nat.add map].
      apply combine_perm; auto.
      eapply perm_trans; [apply perm_swap|]. apply perm_skip.
      apply Permutation_cons_append.
    - (* last, not first *)
      replace (rcv (l + 1 * N)) with (R (p - 1)) by (rewrite <- RR, Nat.eqb_refl by lia; reflexivity).
      rewrite map_map. rewrite Sp at 2. cbn [seq map].
      replace (rcv (l + (2 + 0) * N)) with O by (rewrite <- RO; f_equal; lia).
      replace (map (fun i => rcv (l + (2 + i) * N)) (seq 1 (p - 1))) with (map R (seq 0 (p - 1))).
      2:{ rewrite <- seq_shift, map_map. apply map_ext_in. intros i Hi. apply in_seq in Hi.
          rewrite <- RR by lia. replace (i =? p - 1) with false by (symmetry; apply Nat.eqb_neq; lia).
          f_equal; lia. }
      rewrite Sp at 3. rewrite seq_S, map_app. cbn [Nat.add map].
      apply combine_perm; auto.
      eapply perm_trans; [apply perm_swap|]. apply perm_skip.
      apply Permutation_cons_append.
    - (* not last, first *)
      replace (rcv (l + 2 * N)) with (R 0) by (rewrite <- RR by lia; f_equal; lia).
      cbn [map]. replace (rcv l) with O by (rewrite <- RO; f_equal; lia). rewrite map_map.
      replace (map (fun i => rcv (l + (2 + i) * N)) (seq 1 (p - 1))) with (map R (seq 1 (p - 1))).
      2:{ apply map_ext_in. intros i Hi. apply in_seq in Hi. rewrite <- RR by lia. f_equal; lia. }
      rewrite Sp at 2. cbn [seq map]. apply combine_perm; auto. apply perm_swap.
    - (* not last, not first *)
      rewrite RO, map_map. f_equal. f_equal. apply map_ext_in. intros i Hi. apply in_seq in Hi.
      apply RR; lia.
  Qed.
End RS.

Section Mid.
  Context (g p M N : nat) (Hg : 0 < g) (Hp : 0 < p) (HM : 0 < M) (first : bool).
  Let G := g * (p + 1).
  Context (HGM : M mod G = 0) (HMN : N mod M = 0).

  Definition mid_soff : nat := if first then 0 else N.
  Definition mid_slot (i : nat) : nat := if first then i + 1 else i + 2.
  Definition mid_rlist (l : nat) : list nat :=
    if first then map (fun i => if i =? 0 then l else l + (i + 1) * N) (seq 0 p)
    else map (fun i => l + (i + 2) * N) (seq 0 p).

  Lemma in_mid_writes q n f : In (n, f) (mid_writes N M g p first q) <->
    exists l, l / M = q / M /\
      ((n = l + mid_soff /\ f = Send (map (fun i => (zn (partner G g q i), l)) (seq 0 p))) \/
       (exists i, i < p /\ n = l + mid_slot i * N /\ f = Recv [(zn (partner G g q i), l)]) \/
       (n = l + 1 * N /\ f = Reduce (mid_rlist l))).
  Proof.
    unfold mid_writes. rewrite in_flat_map. fold G.
    assert (P : forall l, In l (seq (q / M * M) M) <-> l / M = q / M).
    { intros l. rewrite in_seq. apply group_range. assumption. }
    unfold mid_slot, mid_soff, mid_rlist.
    split.
    - intros (l & Hl & H). apply P in Hl. exists l. split; [assumption|].
      destruct first; apply in_app_or in H; (destruct H as [H|H]; [destruct H as [H|[H|[]]]; injection H as <- <-|]).
      + left. split; [lia|reflexivity].
      + right; right. split; [lia|reflexivity].
      + apply in_map_iff in H. destruct H as (i & H & Hi). apply in_seq in Hi. injection H as <- <-.
        right; left. exists i. split; [lia|]. split; reflexivity.
      + left. split; [lia|reflexivity].
      + right; right. split; [lia|reflexivity].
      + apply in_map_iff in H. destruct H as (i & H & Hi). apply in_seq in Hi. injection H as <- <-.
        right; left. exists i. split; [lia|]. split; reflexivity.
    - intros (l & Hl & H). exists l. split; [apply P; assumption|].
      destruct first; destruct H as [(-> & ->)|[(i & Hi & -> & ->)|(-> & ->)]].
      + apply in_or_app; left; left. f_equal; lia.
      + apply in_or_app; right. apply in_map_iff. exists i. split; [reflexivity|apply in_seq; lia].
      + apply in_or_app; left; right; left. f_equal; lia.
      + apply in_or_app; left; left. f_equal; lia.
      + apply in_or_app; right. apply in_map_iff. exists i. split; [reflexivity|apply in_seq; lia].
      + apply in_or_app; left; right; left. f_equal; lia.
  Qed.

  Context (b : nat -> line) (Hb : blanks b).
  Let L q := apply_writes b (mid_writes N M g p first q).
  Let NL := (if first then p + 1 else p + 2) * N.
  Let base q := q / M * M.

  Lemma mid_HN : N mod G = 0.
  Proof.
    assert (Gp := step_pos g p Hg). fold G in Gp.
    apply Nat.mod_divides in HGM; [|lia]. destruct HGM as (c & E).
    apply mod_of_factor with c; [assumption| |rewrite <- E; assumption].
    destruct c; lia.
  Qed.
  Lemma mid_base q : q < N -> base q + M <= N.
  Proof. intros Hq. apply group_fits; assumption. Qed.
  Lemma mid_line_lt q l : q < N -> l / M = q / M -> l < N.
  Proof. intros Hq H. apply group_lt with M q; auto. Qed.

  Lemma big_in_middle t q : q / G = t / G -> q / M = t / M.
  Proof.
    intros E. assert (Gp := step_pos g p Hg). fold G in Gp.
    apply Nat.mod_divides in HGM; [|lia]. destruct HGM as (c & E').
    assert (c <> 0) by (intros ->; lia).
    rewrite E'. rewrite <- !Nat.div_div by lia. congruence.
  Qed.

  Lemma mid_slot_inj i j : i < p -> j < p -> mid_slot i = mid_slot j -> i = j.
  Proof. intros Hi Hj. unfold mid_slot. destruct first; lia. Qed.
  Lemma mid_slot_fit i : i < p -> (mid_slot i + 1) * N <= NL.
  Proof. intros Hi. unfold mid_slot, NL. destruct first; apply Nat.mul_le_mono_r; lia. Qed.

  Lemma mid_hit q i l : q < N -> i < p -> base q <= l < base q + M ->
    recvfrom (L q (l + mid_slot i * N)) = [(zn (partner G g q i), l)].
  Proof.
    intros Hq Hi Hl. apply (group_range M q HM) in Hl. apply recvfrom_some.
    - apply in_mid_writes. exists l. split; [assumption|]. right; left. eauto.
    - intros v Hv. apply in_mid_writes in Hv. destruct Hv as (l' & Hl' & [(_ & [=])|[(j & Hj & En & Ev)|(_ & [=])]]).
      assert (A := mid_line_lt q l Hq Hl). assert (A' := mid_line_lt q l' Hq Hl').
      destruct (slot_eq N l l' _ _ A A' En) as (<- & S). apply mid_slot_inj in S; auto. subst j. congruence.
  Qed.
  Lemma mid_miss q n : q < N -> (forall i l, i < p -> base q <= l < base q + M -> n <> l + mid_slot i * N) ->
    recvfrom (L q n) = [].
  Proof.
    intros Hq H. unfold L. rewrite recvfrom_none; [destruct (Hb n) as (f & ->); reflexivity|].
    intros v Hv. apply in_mid_writes in Hv. destruct Hv as (l' & Hl' & [(_ & [=])|[(j & Hj & En & Ev)|(_ & [=])]]).
    eapply H; [exact Hj| |exact En]. apply group_range; assumption.
  Qed.
  Lemma mid_send_hit q l : q < N -> l / M = q / M ->
    sendto (L q (l + mid_soff)) = map (fun i => (zn (partner G g q i), l)) (seq 0 p).
  Proof.
    intros Hq Hl. apply sendto_some.
    - apply in_mid_writes. exists l. split; [assumption|]. left. auto.
    - intros v Hv. apply in_mid_writes in Hv. destruct Hv as (l' & Hl' & [(En & Ev)|[(j & Hj & En & [=])|(_ & [=])]]).
      assert (l = l') by (clear -En; lia). subst. congruence.
  Qed.
  Lemma mid_send_miss q n : q < N -> (forall l, l / M = q / M -> n <> l + mid_soff) ->
    sendto (L q n) = [].
  Proof.
    intros Hq H. unfold L. rewrite sendto_none; [destruct (Hb n) as (f & ->); reflexivity|].
    intros v Hv. apply in_mid_writes in Hv. destruct Hv as (l' & Hl' & [(En & Ev)|[(j & Hj & En & [=])|(_ & [=])]]).
    eapply H; eauto.
  Qed.
  Lemma mid_reduce_hit q l : q < N -> l / M = q / M -> reducefrom (L q (l + 1 * N)) = mid_rlist l.
  Proof.
    intros Hq Hl. apply reducefrom_some.
    - apply in_mid_writes. exists l. split; [assumption|]. right; right. auto.
    - intros v Hv. apply in_mid_writes in Hv. destruct Hv as (l' & Hl' & [(En & [=])|[(j & Hj & En & [=])|(En & Ev)]]).
      assert (l = l') by (clear -En; lia). subst. congruence.
  Qed.
  Lemma mid_reduce_miss q n : q < N -> (forall l, l / M = q / M -> n <> l + 1 * N) ->
    reducefrom (L q n) = [].
  Proof.
    intros Hq H. unfold L. rewrite reducefrom_none; [destruct (Hb n) as (f & ->); reflexivity|].
    intros v Hv. apply in_mid_writes in Hv. destruct Hv as (l' & Hl' & [(En & [=])|[(j & Hj & En & [=])|(En & Ev)]]).
    eapply H; eauto.
  Qed.
  Lemma mid_no_copyreduce q n : copyreducefrom (L q n) = [].
  Proof.
    unfold L. rewrite copyreducefrom_none; [destruct (Hb n) as (f & ->); reflexivity|].
    intros v Hv. apply in_mid_writes in Hv.
    destruct Hv as (l' & Hl' & [(En & [=])|[(j & Hj & En & [=])|(En & [=])]]).
  Qed.

  Context (blk : nat -> block) (Hblk : forall q, blk q = Block NL (L q)).

  Lemma mid_NL : 2 * N <= NL.
  Proof. unfold NL. apply Nat.mul_le_mono_r. destruct first; lia. Qed.
  Lemma mid_soff_le : mid_soff <= N.
  Proof. unfold mid_soff; destruct first; lia. Qed.

  Lemma mid_sent t q : t < N -> q < N -> q / G = t / G -> q mod g = t mod g -> q <> t ->
    sent_lines blk t q = seq (base q + mid_soff) M.
  Proof.
    intros Ht Hq E1 E2 D.
    assert (EM := big_in_middle t q E1).
    assert (B := mid_base q Hq). assert (X1 := mid_NL). assert (X2 := mid_soff_le).
    apply sent_lines_seq; rewrite ?Hblk; cbn [num_lines lines].
    - unfold base in *; clear - B X1 X2; glia.
    - intros n Hn Hr. replace n with ((n - mid_soff) + mid_soff) by (unfold base in *; clear - Hr; glia).
      assert (E : (n - mid_soff) / M = q / M) by (apply group_range; [assumption|unfold base in *; clear - Hr; glia]).
      rewrite mid_send_hit; [|assumption|congruence].
      apply filter_dest; [apply partner_inj; assumption|]. apply partner_surj; auto.
    - intros n Hn Hr.
      destruct (le_lt_dec mid_soff n) as [A|A]; [|rewrite mid_send_miss; auto; clear - A; intros; lia].
      destruct (Nat.eq_dec ((n - mid_soff) / M) (t / M)) as [F1|F1].
      + exfalso. apply Hr. rewrite <- EM in F1. apply (group_range M q HM) in F1. unfold base. clear - F1 A. glia.
      + rewrite mid_send_miss; auto. intros l Hl ->. rewrite Nat.add_sub in F1. contradiction.
  Qed.
  Lemma mid_sent_none t q : t < N -> ~ (q / G = t / G /\ q mod g = t mod g) ->
    sent_lines blk t q = [].
  Proof.
    intros Ht P. apply sent_lines_nil. rewrite Hblk; cbn [num_lines lines]. intros n Hn.
    destruct (le_lt_dec mid_soff n) as [A|A]; [|rewrite mid_send_miss; auto; clear - A; intros; lia].
    destruct (Nat.eq_dec ((n - mid_soff) / M) (t / M)) as [F1|F1].
    - replace n with ((n - mid_soff) + mid_soff) by (clear - A; lia). rewrite mid_send_hit by assumption.
      apply filter_dest_none. intros i Hi <-. apply P.
      destruct (partner_peer g p Hg t i Hi) as (X & Y & _). split; assumption.
    - rewrite mid_send_miss; auto. intros l Hl ->. rewrite Nat.add_sub in F1. contradiction.
  Qed.

  Lemma mid_num q : num_lines (blk q) = NL.
  Proof. rewrite Hblk; reflexivity. Qed.
  Lemma mid_hit' q i l : q < N -> i < p -> base q <= l < base q + M ->
    recvfrom (lines (blk q) (l + mid_slot i * N)) = [(zn (partner G g q i), l)].
  Proof. rewrite Hblk. apply mid_hit. Qed.
  Lemma mid_miss' q n : q < N -> (forall i l, i < p -> base q <= l < base q + M -> n <> l + mid_slot i * N) ->
    recvfrom (lines (blk q) n) = [].
  Proof. rewrite Hblk. apply mid_miss. Qed.
  Lemma mid_sent' q i : q < N -> i < p -> sent_lines blk (partner G g q i) q = seq (base q + mid_soff) M.
  Proof.
    intros Hq Hi. destruct (partner_peer g p Hg q i Hi) as (A & B & C & _).
    apply mid_sent; auto. apply (partner_lt g p N Hg mid_HN); assumption.
  Qed.

  Context {V : Type} (op : V -> V -> V) (st : nat -> nat -> V).

  Lemma mid_received q i l : q < N -> i < p -> l / M = q / M ->
    received op N blk st q (l + mid_slot i * N) = st (partner G g q i) (l + mid_soff).
  Proof.
    intros Hq Hi Hl.
    apply (slots_received_hit g p N NL M Hg mid_HN base mid_slot mid_base mid_slot_inj mid_slot_fit blk mid_num
             mid_hit' mid_miss' mid_soff mid_sent' op st); auto.
    apply group_range; assumption.
  Qed.
  Lemma mid_received_own q l : q < N -> l / M = q / M ->
    received op N blk st q (l + mid_soff) = st q (l + mid_soff).
  Proof.
    intros Hq Hl.
    apply (slots_received_miss g p N NL M Hg mid_HN base mid_slot mid_base mid_slot_inj mid_slot_fit blk mid_num
             mid_hit' mid_miss' op st); auto.
    replace mid_soff with ((if first then 0 else 1) * N) by (unfold mid_soff; destruct first; lia).
    intros i l' Hi Hl' E. apply (group_range M q HM) in Hl'.
    apply slot_eq in E; [|apply mid_line_lt with q; assumption|apply mid_line_lt with q; assumption].
    destruct E as (_ & E). unfold mid_slot in E. clear - E. destruct first; lia.
  Qed.

  Lemma mid_rlist_slots l r : In r (mid_rlist l) -> exists c, c <> 1 /\ r = l + c * N.
  Proof.
    unfold mid_rlist. destruct first; intros H;
      apply in_map_iff in H; destruct H as (i & <- & Hi); apply in_seq in Hi.
    - destruct (Nat.eqb_spec i 0); [exists 0|exists (i + 1)]; lia.
    - eexists; (split; [|reflexivity]); lia.
  Qed.

  Context (op_assoc : forall a b c, op a (op b c) = op (op a b) c) (op_comm : forall a b, op a b = op b a).

  Lemma mid_stage_value q l : q < N -> l / M = q / M ->
    Some (stage op N blk st q (l + 1 * N)) =
    combine op (map (fun u => st u (l + mid_soff)) (q :: map (partner G g q) (seq 0 p))).
  Proof.
    intros Hq Hl.
    assert (Ll : l < N) by (apply mid_line_lt with q; auto).
    unfold stage. rewrite copyreduced_id by (intros; rewrite Hblk; apply mid_no_copyreduce).
    rewrite reduced_at.
    2:{ rewrite mid_num. assert (X := mid_NL). clear - X Ll; lia. }
    2:{ rewrite Hblk; cbn [lines]. fold (L q). rewrite mid_reduce_hit by assumption.
        intros r Hr. apply mid_rlist_slots in Hr. destruct Hr as (c & Hc & ->). split.
        - intros E. apply slot_eq in E; auto. tauto.
        - apply mid_reduce_miss; auto. intros l' Hl' E. apply slot_eq in E; auto; [tauto|].
          apply mid_line_lt with q; auto. }
    rewrite Hblk; cbn [lines]. fold (L q). rewrite mid_reduce_hit by assumption.
    rewrite combine_reduce. set (rcv := received op N blk st q).
    set (O := st q (l + mid_soff)). set (R i := st (partner G g q i) (l + mid_soff)).
    transitivity (combine op (O :: map R (seq 0 p))).
    2:{ cbn [map]. rewrite map_map. reflexivity. }
    assert (RO : rcv (l + mid_soff) = O) by (apply mid_received_own; assumption).
    assert (RR : forall i, i < p -> rcv (l + mid_slot i * N) = R i) by (intros; apply mid_received; assumption).
    clearbody rcv O R. clear - RO RR Hp op_assoc op_comm.
    unfold mid_rlist, mid_slot, mid_soff in *.
    assert (Sp : p = S (p - 1)) by lia.
    destruct first.
    - replace (rcv (l + 1 * N)) with (R 0) by (rewrite <- RR by lia; f_equal; lia).
      rewrite map_map. rewrite Sp at 1. cbn [seq map Nat.eqb].
      replace (rcv l) with O by (rewrite <- RO; f_equal; lia).
      replace (map _ (seq 1 (p - 1))) with (map R (seq 1 (p - 1))).
      2:{ apply map_ext_in. intros i Hi. apply in_seq in Hi. rewrite <- RR by lia.
          destruct (Nat.eqb_spec i 0); [lia|]. f_equal; lia. }
      rewrite Sp at 2. cbn [seq map]. apply combine_perm; auto. apply perm_swap.
    - replace (rcv (l + 1 * N)) with O by (rewrite <- RO; f_equal; lia).
      rewrite map_map. f_equal. f_equal. apply map_ext_in. intros i Hi. apply in_seq in Hi. apply RR; lia.
  Qed.
End Mid.
