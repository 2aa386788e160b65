(* Proofs about the schedules of src/core/allreduce_recursive.c. *)
From Verif Require Import Base SchedModel SchedSpec SchedProofs RecursiveModel RecursiveArith.

Lemma is_node_zn q u l : is_node q (zn u, l) = (u =? q).
Proof.
  unfold is_node, zn; cbn. destruct (Nat.eqb_spec u q); [subst; apply Z.eqb_refl|].
  apply Z.eqb_neq; lia.
Qed.

Definition blanks (b : nat -> line) : Prop := forall n, exists f, b n = blank f.

(* filter of one-to-one destinations *)
Lemma filter_dest (f : nat -> nat) (q l p : nat) :
  (forall i j, i < p -> j < p -> f i = f j -> i = j) ->
  (exists i, i < p /\ f i = q) ->
  length (filter (is_node q) (map (fun i => (zn (f i), l)) (seq 0 p))) = 1.
Proof.
  intros Inj (i & Hi & Ei).
  rewrite (seq_split i 1 p) by lia. cbn [seq]. rewrite !map_app, !filter_app, !app_length.
  rewrite (filter_none _ (map _ (seq 0 i))), (filter_none _ (map _ (seq (i + 1) _))).
  - cbn [map filter]. rewrite is_node_zn, Ei, Nat.eqb_refl. reflexivity.
  - intros x Hx. apply in_map_iff in Hx. destruct Hx as (j & <- & Hj). apply in_seq in Hj.
    rewrite is_node_zn. apply Nat.eqb_neq. intros E. rewrite <- Ei in E. apply Inj in E; lia.
  - intros x Hx. apply in_map_iff in Hx. destruct Hx as (j & <- & Hj). apply in_seq in Hj.
    rewrite is_node_zn. apply Nat.eqb_neq. intros E. rewrite <- Ei in E. apply Inj in E; lia.
Qed.
Lemma filter_dest_none (f : nat -> nat) (q l p : nat) :
  (forall i, i < p -> f i <> q) ->
  filter (is_node q) (map (fun i => (zn (f i), l)) (seq 0 p)) = [].
Proof.
  intros H. apply filter_none. intros x Hx. apply in_map_iff in Hx.
  destruct Hx as (j & <- & Hj). apply in_seq in Hj. rewrite is_node_zn. apply Nat.eqb_neq, H; lia.
Qed.

(* linear arithmetic with groups and quotients taken as atoms *)
Ltac atom t := let x := fresh "x" in set (x := t) in *; clearbody x.
Ltac atoms :=
  repeat match goal with
      | H : context [?a / ?b * ?b] |- _ => atom (a / b * b)
      | |- context [?a / ?b * ?b] => atom (a / b * b)
      end;
  repeat match goal with
      | H : context [?a / ?b] |- _ => atom (a / b)
      | |- context [?a / ?b] => atom (a / b)
      | H : context [?a mod ?b] |- _ => atom (a mod b)
      | |- context [?a mod ?b] => atom (a mod b)
      end.
Ltac glia := solve [ atoms; lia ].

Lemma same_node g a b : 0 < g -> a / g = b / g -> a mod g = b mod g -> a = b.
Proof.
  intros Hg E1 E2. rewrite (Nat.div_mod a g), (Nat.div_mod b g) by lia. congruence.
Qed.
Lemma node_eq g a : 0 < g -> a / g * g + a mod g = a.
Proof. intros Hg. assert (X := Nat.div_mod a g ltac:(lia)). rewrite Nat.mul_comm. symmetry; exact X. Qed.
Lemma node_div g a r : 0 < g -> r < g -> (a * g + r) / g = a.
Proof. intros Hg Hr. symmetry; apply Nat.div_unique with r; [assumption|]. rewrite Nat.mul_comm; reflexivity. Qed.
Lemma node_mod g a r : 0 < g -> r < g -> (a * g + r) mod g = r.
Proof. intros Hg Hr. symmetry; apply Nat.mod_unique with a; [assumption|]. rewrite Nat.mul_comm; reflexivity. Qed.

(* ----- the allgather exchange ----- *)
Section AG.
  Context (off g p : nat) (Hg : 0 < g).
  Let G := g * (p + 1).

  Lemma ptarget l q : l / G = q / G -> l / g <> q / g ->
    partner G g q (partner_index G g l q) = l / g * g + q mod g.
  Proof. exact (partner_target g p Hg l q). Qed.

  Lemma in_ag_writes q n f : In (n, f) (ag_writes off g p q) <->
    exists l, l / G = q / G /\ n = l + off /\
      f = if l / g =? q / g
          then Send (map (fun i => (zn (partner G g q i), l)) (seq 0 p))
          else Recv [(zn (partner G g q (partner_index G g l q)), l)].
  Proof.
    unfold ag_writes. rewrite in_flat_map. fold G. split.
    - intros (l & Hl & H). apply in_seq in Hl. exists l.
      split; [apply range_peer with (g := g); [assumption|exact Hl]|].
      destruct (l / g =? q / g); destruct H as [H|[]]; injection H as <- <-; auto.
    - intros (l & Hl & -> & ->). exists l. split.
      + apply in_seq. apply peer_range with (g := g); [assumption|exact Hl].
      + destruct (l / g =? q / g); left; reflexivity.
  Qed.

  Context (b : nat -> line) (Hb : blanks b).
  Let L q := apply_writes b (ag_writes off g p q).

  Lemma ag_send_hit q l : l / g = q / g ->
    sendto (L q (l + off)) = map (fun i => (zn (partner G g q i), l)) (seq 0 p).
  Proof.
    intros E. apply sendto_some.
    - apply in_ag_writes. exists l. split; [apply small_in_big; assumption|]. split; [reflexivity|].
      rewrite E, Nat.eqb_refl. reflexivity.
    - intros v Hv. apply in_ag_writes in Hv. destruct Hv as (l' & _ & El & Ev).
      assert (l' = l) by glia. subst l'. rewrite E, Nat.eqb_refl in Ev. congruence.
  Qed.
  Lemma ag_send_miss q n : (forall l, l / g = q / g -> n <> l + off) -> sendto (L q n) = [].
  Proof.
    intros H. unfold L. rewrite sendto_none; [destruct (Hb n) as (f & ->); reflexivity|].
    intros v Hv. apply in_ag_writes in Hv. destruct Hv as (l & _ & El & Ev).
    destruct (Nat.eqb_spec (l / g) (q / g)); [|discriminate]. eapply H; eauto.
  Qed.
  Lemma ag_recv_hit q l : l / G = q / G -> l / g <> q / g ->
    recvfrom (L q (l + off)) = [(zn (l / g * g + q mod g), l)].
  Proof.
    intros E D. unfold L. apply recvfrom_some.
    - apply in_ag_writes. exists l. split; [assumption|]. split; [reflexivity|].
      apply Nat.eqb_neq in D as D'. rewrite D'. rewrite ptarget by assumption. reflexivity.
    - intros v Hv. apply in_ag_writes in Hv. destruct Hv as (l' & _ & El & Ev).
      assert (l' = l) by glia. subst l'. apply Nat.eqb_neq in D as D'. rewrite D' in Ev.
      rewrite ptarget in Ev by assumption. congruence.
  Qed.
  Lemma ag_recv_miss q n : (forall l, l / G = q / G -> l / g <> q / g -> n <> l + off) ->
    recvfrom (L q n) = [].
  Proof.
    intros H. unfold L. rewrite recvfrom_none; [destruct (Hb n) as (f & ->); reflexivity|].
    intros v Hv. apply in_ag_writes in Hv. destruct Hv as (l & Hl & El & Ev).
    destruct (Nat.eqb_spec (l / g) (q / g)); [discriminate|]. eapply H; eauto.
  Qed.
  Lemma ag_no_reduce q n : reducefrom (L q n) = [].
  Proof.
    unfold L. rewrite reducefrom_none; [destruct (Hb n) as (f & ->); reflexivity|].
    intros v Hv. apply in_ag_writes in Hv. destruct Hv as (l & Hl & El & Ev).
    destruct (l / g =? q / g); discriminate.
  Qed.
  Lemma ag_no_copyreduce q n : copyreducefrom (L q n) = [].
  Proof.
    unfold L. rewrite copyreducefrom_none; [destruct (Hb n) as (f & ->); reflexivity|].
    intros v Hv. apply in_ag_writes in Hv. destruct Hv as (l & Hl & El & Ev).
    destruct (l / g =? q / g); discriminate.
  Qed.

  Context (N NL : nat) (HN : N mod G = 0) (HNL : off + N <= NL).
  Context (blk : nat -> block) (Hblk : forall q, blk q = Block NL (L q)).

  Lemma Gpos : 0 < G. Proof. unfold G; nia. Qed.

  Lemma g_group_in t : t < N -> t / g * g + g <= N.
  Proof.
    intros Ht. apply group_fits; [assumption| |assumption].
    unfold G in HN. apply Nat.mod_divides in HN; [|nia]. destruct HN as (c & ->).
    rewrite <- Nat.mul_assoc, Nat.mul_comm. apply Nat.mod_mul. glia.
  Qed.

  Definition peers t u : Prop := u / G = t / G /\ u mod g = t mod g.

  Lemma ag_sent p0 q : p0 < N -> p0 <> q ->
    (peers p0 q -> sent_lines blk p0 q = seq (p0 / g * g + off) g) /\
    (~ peers p0 q -> sent_lines blk p0 q = []).
  Proof.
    intros Hp D. assert (GI := g_group_in p0 Hp). split; intros P.
    - apply sent_lines_seq; rewrite ?Hblk; cbn [num_lines lines].
      + glia.
      + intros n Hn Hr. replace n with ((n - off) + off) by glia.
        rewrite ag_send_hit by (apply group_range; [assumption|glia]).
        apply filter_dest; [apply partner_inj; assumption|].
        destruct P. apply partner_surj; auto.
      + intros n Hn Hr. rewrite ag_send_miss; [reflexivity|].
        intros l Hl ->. apply group_range in Hl; [|assumption]. glia.
    - apply sent_lines_nil; rewrite ?Hblk; cbn [num_lines lines]. intros n Hn.
      destruct (le_lt_dec off n) as [Ho|Ho]; [destruct (Nat.eq_dec ((n - off) / g) (p0 / g)) as [E|E]|].
      + replace n with ((n - off) + off) by glia. rewrite ag_send_hit by assumption.
        apply filter_dest_none. intros i Hi <-. apply P.
        destruct (partner_peer g p Hg p0 i Hi) as (A & B & _). split; assumption.
      + rewrite ag_send_miss; [reflexivity|]. intros l Hl ->. apply E.
        rewrite Nat.add_sub; assumption.
      + rewrite ag_send_miss; [reflexivity|]. intros l Hl ->. glia.
  Qed.

  Lemma ag_recv_iff q n p0 : q <> p0 ->
    existsb (is_node p0) (recvfrom (L q n)) = true <->
    peers p0 q /\ p0 / g * g + off <= n < p0 / g * g + g + off.
  Proof.
    intros D.
    assert (MR := Nat.mod_upper_bound q g ltac:(lia)).
    split.
    - intros H.
      destruct (le_lt_dec off n) as [Ho|Ho]; [|rewrite ag_recv_miss in H; [discriminate|intros; glia]].
      destruct (Nat.eq_dec ((n - off) / G) (q / G)) as [E1|E1];
        [|rewrite ag_recv_miss in H; [discriminate|intros l Hl ? ->; rewrite Nat.add_sub in E1; contradiction]].
      destruct (Nat.eq_dec ((n - off) / g) (q / g)) as [E2|E2];
        [rewrite ag_recv_miss in H; [discriminate|intros l Hl ? ->; rewrite Nat.add_sub in E2; contradiction]|].
      replace n with ((n - off) + off) in H by glia.
      rewrite ag_recv_hit in H by assumption. cbn [existsb] in H. rewrite is_node_zn, orb_false_r in H.
      apply Nat.eqb_eq in H.
      set (l := n - off) in *.
      assert (Q : p0 / g = l / g) by (rewrite <- H; apply node_div; assumption).
      assert (R : p0 mod g = q mod g) by (rewrite <- H; apply node_mod; assumption).
      split.
      + split; [|symmetry; assumption]. rewrite <- E1. apply (small_in_big g p Hg). congruence.
      + assert (X : l / g = p0 / g) by congruence. apply (group_range g p0 Hg) in X.
        unfold l in X. glia.
    - intros ((P1 & P2) & R).
      replace n with ((n - off) + off) by glia.
      assert (E : (n - off) / g = p0 / g) by (apply group_range; glia).
      rewrite ag_recv_hit.
      + cbn [existsb]. rewrite is_node_zn, E, P2, orb_false_r. apply Nat.eqb_eq, node_eq; assumption.
      + rewrite P1. apply (small_in_big g p Hg). assumption.
      + rewrite E. intros X. apply D. apply same_node with g; auto.
  Qed.

  Lemma ag_recv q p0 : p0 < N -> q <> p0 ->
    (peers p0 q -> recv_lines blk q p0 = seq (p0 / g * g + off) g) /\
    (~ peers p0 q -> recv_lines blk q p0 = []).
  Proof.
    intros Hp D. assert (GI := g_group_in p0 Hp). split; intros P.
    - apply recv_lines_seq; rewrite ?Hblk; cbn [num_lines lines]; [glia|].
      intros n Hn. fold (L q). rewrite ag_recv_iff by assumption. split; [intros (_ & ?); glia|intros; split; [assumption|glia]].
    - apply recv_lines_nil; rewrite ?Hblk; cbn [num_lines lines]. intros n Hn.
      apply not_true_is_false. intros H. fold (L q) in H. apply ag_recv_iff in H; [|assumption]. tauto.
  Qed.

  Lemma peers_dec t u : {peers t u} + {~ peers t u}.
  Proof.
    unfold peers. destruct (Nat.eq_dec (u / G) (t / G)); [|right; tauto].
    destruct (Nat.eq_dec (u mod g) (t mod g)); [left; tauto|right; tauto].
  Qed.

  Lemma ag_no_self q n l : recvfrom (L q n) = l -> forall e, In e l -> is_node q e = false.
  Proof.
    intros <- e He. apply not_true_is_false. intros T.
    destruct (le_lt_dec off n) as [Ho|Ho]; [|rewrite ag_recv_miss in He; [destruct He|intros; glia]].
    destruct (Nat.eq_dec ((n - off) / G) (q / G)) as [E1|E1];
      [|rewrite ag_recv_miss in He; [destruct He|intros l Hl ? ->; rewrite Nat.add_sub in E1; contradiction]].
    destruct (Nat.eq_dec ((n - off) / g) (q / g)) as [E2|E2];
      [rewrite ag_recv_miss in He; [destruct He|intros l Hl ? ->; rewrite Nat.add_sub in E2; contradiction]|].
    replace n with ((n - off) + off) in He by glia.
    rewrite ag_recv_hit in He by assumption. destruct He as [<-|[]].
    rewrite is_node_zn in T. apply Nat.eqb_eq in T.
    apply E2. rewrite <- T. symmetry; apply node_div; [assumption|apply Nat.mod_upper_bound; glia].
  Qed.

  Lemma ag_simple q : simple_recv N blk q.
  Proof.
    intros p0 Hp D. split.
    - destruct (peers_dec p0 q) as [P|P].
      + destruct (ag_recv q p0 Hp ltac:(auto)) as [E _]. rewrite (E P). exists (p0 / g * g + off).
        rewrite seq_length; reflexivity.
      + destruct (ag_recv q p0 Hp ltac:(auto)) as [_ E]. rewrite (E P). exists 0; reflexivity.
    - unfold reduces_into. rewrite Hblk; cbn [lines].
      remember (recvfrom (L q (last (recv_lines blk q p0) 0))) as rf eqn:E.
      destruct rf as [|e r]; [reflexivity|]. symmetry in E. eapply ag_no_self; [exact E|now left].
  Qed.

  Context {V : Type} (op : V -> V -> V) (st : nat -> nat -> V).

  Lemma stage_received_only q n : reducefrom (lines (blk q) n) = [] ->
    stage op N blk st q n = received op N blk st q n.
  Proof.
    intros H. unfold stage. rewrite copyreduced_id by (intros; rewrite Hblk; apply ag_no_copyreduce).
    apply reduced_nil. exact H.
  Qed.

  Lemma ag_stage_hit q l : q < N -> l / G = q / G ->
    stage op N blk st q (l + off) = st (l / g * g + q mod g) (l + off).
  Proof.
    intros Hq Hl. rewrite stage_received_only by (rewrite Hblk; apply ag_no_reduce).
    assert (MR := Nat.mod_upper_bound q g ltac:(lia)).
    set (u := l / g * g + q mod g).
    assert (U1 : u / g = l / g) by (apply node_div; assumption).
    assert (U2 : u mod g = q mod g) by (apply node_mod; assumption).
    assert (U3 : u / G = q / G) by (rewrite <- Hl; apply (small_in_big g p Hg); assumption).
    assert (Hu : u < N) by (apply group_lt with G q; auto using Gpos).
    destruct (Nat.eq_dec (l / g) (q / g)) as [E|E].
    - assert (u = q) as ->.
      { apply same_node with g; auto; congruence. }
      apply received_miss; [apply ag_simple|].
      intros p0 Hp D I. apply filter_In in I. destruct I as [_ I]. rewrite Hblk in I; cbn [lines] in I.
      apply ag_recv_iff in I; [|auto]. destruct I as ((I1 & I2) & I3).
      assert (X : l / g = p0 / g) by (apply group_range; [assumption|clear -I3; glia]).
      apply D. apply same_node with g; auto; congruence.
    - assert (D : u <> q) by congruence.
      assert (P : peers u q) by (split; auto).
      destruct (ag_recv q u Hu ltac:(auto)) as [R _]. specialize (R P).
      destruct (ag_sent u q Hu ltac:(auto)) as [S _]. specialize (S P).
      assert (GR : u / g * g <= l < u / g * g + g) by (apply group_range; auto).
      rewrite (received_hit op N blk st q u (l + off) (u / g * g + off) g); auto.
      + rewrite (message_nth op blk st u q (u / g * g + off) g) by (auto; glia).
        f_equal. glia.
      + apply ag_simple.
      + glia.
      + intros p' Hp' D1 D2 I. apply filter_In in I. destruct I as [_ I]. rewrite Hblk in I; cbn [lines] in I.
        apply ag_recv_iff in I; [|auto]. destruct I as ((I1 & I2) & I3).
        assert (X : l / g = p' / g) by (apply group_range; [assumption|clear -I3; glia]).
        apply D2. apply same_node with g; auto; congruence.
  Qed.

  Lemma ag_stage_miss q n : q < N -> (forall l, l / G = q / G -> n <> l + off) ->
    stage op N blk st q n = st q n.
  Proof.
    intros Hq H. rewrite stage_received_only by (rewrite Hblk; apply ag_no_reduce).
    apply received_miss; [apply ag_simple|].
    intros p0 Hp D I. apply filter_In in I. destruct I as [_ I]. rewrite Hblk in I; cbn [lines] in I.
    apply ag_recv_iff in I; [|auto]. destruct I as ((I1 & I2) & I3).
    apply (H (n - off)); [|clear -I3; glia]. rewrite I1.
    apply (small_in_big g p Hg), group_range; [assumption|clear -I3; glia].
  Qed.
End AG.

(* ----- running a schedule ----- *)
Section Run.
  Context {V : Type} (op : V -> V -> V) (N : nat) (alg : nat -> list block).
  Definition nth_stage (m : nat) : nat -> block := fun q => nth m (alg q) empty_block.
  Definition run_from (start k : nat) (st : nat -> nat -> V) : nat -> nat -> V :=
    run op N (map nth_stage (seq start k)) st.

  Lemma run_from_0 start st : run_from start 0 st = st.
  Proof. reflexivity. Qed.
  Lemma run_from_S start k st : run_from start (S k) st = run_from (S start) k (stage op N (nth_stage start) st).
  Proof. reflexivity. Qed.
  Lemma run_from_add start k1 k2 st :
    run_from start (k1 + k2) st = run_from (start + k1) k2 (run_from start k1 st).
  Proof.
    unfold run_from, run. rewrite seq_app, map_app, fold_left_app. reflexivity.
  Qed.
  Lemma execute_eq count st : execute op N alg count st = run_from 1 (count - 1) st.
  Proof. reflexivity. Qed.
End Run.

Lemma blanks_id : blanks blank.
Proof. intros n; eexists; reflexivity. Qed.
Lemma blanks_mod lb : blanks (fun x => blank (x mod lb)).
Proof. intros n; eexists; reflexivity. Qed.

(* a block that moves nothing *)
Lemma idle_stage {V} (op : V -> V -> V) N blk st q n :
  (forall m, recvfrom (lines (blk q) m) = []) -> (forall m, reducefrom (lines (blk q) m) = []) ->
  (forall m, copyreducefrom (lines (blk q) m) = []) ->
  stage op N blk st q n = st q n.
Proof.
  intros H1 H2 H3. unfold stage. rewrite copyreduced_id by assumption. rewrite reduced_nil by apply H2.
  apply received_miss.
  - intros p Hp D. assert (E : recv_lines blk q p = []) by (apply recv_lines_nil; intros; rewrite H1; reflexivity).
    split; [exists 0; rewrite E; reflexivity|]. unfold reduces_into. rewrite H1. reflexivity.
  - intros p Hp D I. apply filter_In in I. rewrite H1 in I. destruct I as [_ I]; discriminate.
Qed.

Definition product (ports : list Z) : nat := fold_right (fun p a => (width p + 1) * a) 1 ports.
Lemma product_cons p r : product (p :: r) = (width p + 1) * product r.
Proof. reflexivity. Qed.
Lemma product_pos ports : 0 < product ports.
Proof. induction ports; [cbn; lia|]. rewrite product_cons. nia. Qed.
Lemma ports_product_eq ports : ports_product ports = product ports.
Proof.
  unfold ports_product. enough (H : forall a, fold_left (fun a p => a * (width p + 1)) ports a = a * product ports)
    by (rewrite H; lia).
  induction ports as [|p r IH]; intros a; [cbn; lia|].
  cbn [fold_left]. rewrite IH, product_cons. nia.
Qed.

Lemma mod_of_factor N a b : 0 < a -> 0 < b -> N mod (a * b) = 0 -> N mod a = 0.
Proof.
  intros Ha Hb H. apply Nat.mod_divides in H; [|nia]. destruct H as (c & ->).
  rewrite <- Nat.mul_assoc, Nat.mul_comm. apply Nat.mod_mul. lia.
Qed.

Lemma step_pos g p : 0 < g -> 0 < g * (p + 1).
Proof. nia. Qed.

Section AGChain.
  Context {V : Type} (op : V -> V -> V) (N off NL : nat) (alg : nat -> list block).
  Context (val : nat -> V) (HNL : off + N <= NL) (b : nat -> line) (Hb : blanks b).

  (* node q holds the final value of every line of its group of size g *)
  Definition gathered (g : nat) (st : nat -> nat -> V) : Prop :=
    forall q l, q < N -> l / g = q / g -> st q (l + off) = val l.

  (* ag_stages, ar_up *)
  Fixpoint up_stages (g : nat) (ports : list Z) (q : nat) : list block :=
    match ports with
    | [] => []
    | p :: r => Block NL (apply_writes b (ag_writes off g (width p) q)) :: up_stages (g * (width p + 1)) r q
    end.
  Lemma up_stages_length g ports q : length (up_stages g ports q) = length ports.
  Proof. revert g; induction ports; intros; cbn; auto. Qed.

  Lemma ag_chain ports : forall g start st, 0 < g -> N mod (g * product ports) = 0 ->
    (forall q m, m < length ports -> nth (start + m) (alg q) empty_block = nth m (up_stages g ports q) empty_block) ->
    gathered g st -> gathered (g * product ports) (run_from op N alg start (length ports) st).
  Proof.
    induction ports as [|p r IH]; intros g start st Hg HN Hs Hst.
    - cbn. rewrite Nat.mul_1_r. exact Hst.
    - cbn [length]. rewrite run_from_S, product_cons, Nat.mul_assoc. rewrite product_cons, Nat.mul_assoc in HN.
      assert (HN' : N mod (g * (width p + 1)) = 0) by (eapply mod_of_factor; [apply step_pos; assumption|apply (product_pos r)|exact HN]).
      apply IH; [apply step_pos; assumption|exact HN| |].
      + intros q m Hm. specialize (Hs q (S m) ltac:(cbn; lia)). rewrite Nat.add_succ_r in Hs. exact Hs.
      + intros q l Hq Hl.
        rewrite (ag_stage_hit off g (width p) Hg b Hb N NL HN' HNL); [| |assumption|assumption].
        * apply Hst; [|rewrite node_div; auto; apply Nat.mod_upper_bound; lia].
          apply group_lt with (g * (width p + 1)) q; auto; [apply step_pos; assumption|].
          rewrite <- Hl. apply small_in_big; auto. apply node_div; auto; apply Nat.mod_upper_bound; lia.
        * intros q'. specialize (Hs q' 0 ltac:(cbn; lia)). rewrite Nat.add_0_r in Hs. exact Hs.
  Qed.
End AGChain.

(* ----- allgather_core ----- *)
Lemma ag_stages_up lb g ports q : ag_stages lb g ports q = up_stages 0 lb blank g ports q.
Proof. revert g; induction ports as [|p r IH]; intros g; [reflexivity|]. cbn. f_equal. apply IH. Qed.

Lemma allgather_length ports t : length (allgather_core ports t) = length ports + 2.
Proof.
  unfold allgather_core. cbn [length]. rewrite app_length, ag_stages_up, up_stages_length. cbn; lia.
Qed.

Lemma ag_first_input lb t n f : t < lb -> (input_line (ag_first lb t) n = Some f <-> n = t /\ f = t).
Proof.
  intros Ht. unfold input_line, ag_first. cbn [lines].
  destruct (Nat.eq_dec n t) as [->|D].
  - rewrite (recvfrom_some _ _ t [((-1)%Z, 0)]).
    + cbn [existsb is_user fst Z.eqb Pos.eqb orb]. rewrite frac_writes. cbn [frac blank].
      split; [intros [=]; auto|intros [_ ->]; reflexivity].
    + apply in_flat_map. exists t. split; [apply in_seq; lia|]. rewrite Nat.eqb_refl. now left.
    + intros v Hv. apply in_flat_map in Hv. destruct Hv as (l & _ & Hv).
      destruct (l =? t); [|destruct Hv]. destruct Hv as [[=]|[]]; auto.
  - rewrite recvfrom_none; [cbn; split; [discriminate|tauto]|].
    intros v Hv. apply in_flat_map in Hv. destruct Hv as (l & _ & Hv).
    destruct (Nat.eqb_spec l t); [|destruct Hv]. destruct Hv as [[=]|[]]; congruence.
Qed.

Lemma sendto_outputs (o : nat -> nat) (a k : nat) (b : nat -> line) n : blanks b ->
  sendto (apply_writes b (map (fun l => (l, Send [((-1)%Z, o l)])) (seq a k)) n) =
  if (a <=? n) && (n <? a + k) then [((-1)%Z, o n)] else [].
Proof.
  intros Hb. destruct ((a <=? n) && (n <? a + k)) eqn:E.
  - apply andb_true_iff in E. destruct E as [E1 E2]. apply Nat.leb_le in E1. apply Nat.ltb_lt in E2.
    apply sendto_some.
    + apply in_map_iff. exists n. split; [reflexivity|apply in_seq; lia].
    + intros v Hv. apply in_map_iff in Hv. destruct Hv as (l & [=] & _). subst. reflexivity.
  - rewrite sendto_none; [destruct (Hb n) as (f & ->); reflexivity|].
    intros v Hv. apply in_map_iff in Hv. destruct Hv as (l & [=] & Hl). subst. apply in_seq in Hl.
    apply andb_false_iff in E. rewrite Nat.leb_gt, Nat.ltb_ge in E. lia.
Qed.

Lemma only_sends b ws n : blanks b -> (forall w, In w ws -> exists v, snd w = Send v) ->
  recvfrom (apply_writes b ws n) = [] /\ reducefrom (apply_writes b ws n) = [] /\
  copyreducefrom (apply_writes b ws n) = [].
Proof.
  intros Hb H. destruct (Hb n) as (f & E).
  rewrite recvfrom_none, reducefrom_none, copyreducefrom_none, E; [repeat split| | |];
    intros v Hv; destruct (H _ Hv) as (v' & [=]).
Qed.

Lemma allgather_correct {V} (op : V -> V -> V) ports (x : nat -> V) st :
  let N := ports_product ports in
  (forall t, t < N -> placed (first_block (allgather_core ports t)) (fun _ => x t) (st t)) ->
  forall t, t < N ->
    delivered (last_block (allgather_core ports t)) (fun f => f < N) x
              (execute op N (allgather_core ports) (length (allgather_core ports t)) st t).
Proof.
  intros N H0 t Ht. rewrite execute_eq, allgather_length.
  replace (length ports + 2 - 1) with (length ports + 1) by lia.
  rewrite run_from_add.
  assert (HN : N = product ports) by apply ports_product_eq.
  assert (G : gathered N 0 x N (run_from op N (allgather_core ports) 1 (length ports) st)).
  { rewrite HN at 2. rewrite <- (Nat.mul_1_l (product ports)).
    apply (ag_chain op N 0 N (allgather_core ports) x (le_n N) blank blanks_id).
    - lia.
    - rewrite Nat.mul_1_l, <- HN. apply Nat.mod_same. rewrite HN. assert (X := product_pos ports). lia.
    - intros q m Hm. unfold allgather_core. cbn [nth Nat.add].
      rewrite app_nth1 by (rewrite ag_stages_up, up_stages_length; assumption).
      rewrite ag_stages_up. reflexivity.
    - intros q l Hq Hl. rewrite !Nat.div_1_r in Hl. subst l. rewrite Nat.add_0_r.
      apply (H0 q Hq q q); [exact Hq|]. apply (ag_first_input N q q q Hq). auto. }
  set (s := run_from op N (allgather_core ports) 1 (length ports) st) in *.
  assert (Hlast : forall q, nth_stage (allgather_core ports) (1 + length ports) q = ag_last N).
  { intros q. unfold nth_stage, allgather_core. cbn [nth Nat.add].
    rewrite app_nth2; rewrite ag_stages_up, up_stages_length; [|lia].
    replace (length ports - length ports) with 0 by lia. reflexivity. }
  assert (LB : last_block (allgather_core ports t) = ag_last N).
  { unfold last_block, allgather_core. rewrite app_comm_cons. apply last_last. }
  rewrite LB.
  assert (St : forall n, run_from op N (allgather_core ports) (1 + length ports) 1 s t n = s t n).
  { intros n. unfold run_from. cbn [seq map run fold_left].
    apply idle_stage; intros m; rewrite Hlast; cbn [ag_last lines];
      apply only_sends; try apply blanks_id; intros w Hw; apply in_map_iff in Hw;
      destruct Hw as (l & <- & _); eexists; reflexivity. }
  assert (O : forall n, output_line (ag_last N) n = if n <? N then Some n else None).
  { intros n. unfold output_line, ag_last. cbn [lines].
    rewrite (sendto_outputs (fun l => l)) by apply blanks_id. cbn [Nat.leb andb Nat.add].
    rewrite frac_writes. destruct (n <? N); reflexivity. }
  assert (Np : 0 < N) by lia.
  split.
  - intros n f Hn Hf. rewrite O in Hf. destruct (Nat.ltb_spec n N); [|discriminate].
    injection Hf as <-. split; [assumption|]. rewrite St.
    specialize (G t n Ht). rewrite Nat.add_0_r in G. apply G. rewrite !Nat.div_small; auto.
  - intros f Hf. exists f. split; [exact Hf|]. rewrite O. apply Nat.ltb_lt in Hf. rewrite Hf. reflexivity.
Qed.
