(* Whole-schedule correctness of reduce_scatter_core and allreduce_core. *)
From Coq Require Import Permutation.
From Verif Require Import Base SchedModel SchedSpec SchedProofs RecursiveModel RecursiveArith CombineProofs RecursiveProofs ReduceProofs.
Local Ltac Zify.zify_post_hook ::= idtac.

(* ----- who contributes ----- *)
Definition down_set (g q k : nat) : bool := k mod g =? q mod g.
Definition mid_set (M g q k : nat) : bool := (k mod M) / g =? (q mod M) / g.

Lemma mod_mod_factor a g c : 0 < g -> 0 < c -> (a mod (g * c)) mod g = a mod g.
Proof.
  intros Hg Hc. rewrite Nat.mod_mul_r by lia. rewrite (Nat.mul_comm g), Nat.mod_add by lia. apply Nat.mod_mod. lia.
Qed.

Lemma NoDup_partners g p q : 0 < g ->
  NoDup (q :: map (partner (g * (p + 1)) g q) (seq 0 p)).
Proof.
  intros Hg. constructor.
  - intros I. apply in_map_iff in I. destruct I as (i & E & Hi). apply in_seq in Hi.
    destruct (partner_peer g p Hg q i) as (_ & _ & D & _); [lia|]. contradiction.
  - assert (Inj := partner_inj g p Hg q).
    assert (H : forall k s, s + k <= p -> NoDup (map (partner (g * (p + 1)) g q) (seq s k))).
    { induction k as [|k IH]; intros s Hs; cbn; constructor.
      - intros I. apply in_map_iff in I. destruct I as (i & E & Hi). apply in_seq in Hi.
        apply Inj in E; lia.
      - apply IH. lia. }
    apply H. lia.
Qed.

Lemma in_partners g p q u : 0 < g -> 
  In u (q :: map (partner (g * (p + 1)) g q) (seq 0 p)) <->
  u / (g * (p + 1)) = q / (g * (p + 1)) /\ u mod g = q mod g.
Proof.
  intros Hg. split.
  - intros [<-|I]; [split; reflexivity|]. apply in_map_iff in I. destruct I as (i & <- & Hi).
    apply in_seq in Hi. destruct (partner_peer g p Hg q i) as (A & B & _); [lia|]. split; assumption.
  - intros (A & B). destruct (Nat.eq_dec u q) as [->|D]; [now left|right].
    destruct (partner_surj g p Hg q u A B D) as (i & Hi & <-). apply in_map, in_seq. lia.
Qed.

(* a value of the group of u at the position of k *)
Lemma down_union g p q : 0 < g -> let G := g * (p + 1) in
  (forall u u' k, In u (q :: map (partner G g q) (seq 0 p)) -> In u' (q :: map (partner G g q) (seq 0 p)) ->
     down_set G u k = true -> down_set G u' k = true -> u = u') /\
  (forall k, down_set g q k = true <-> exists u, In u (q :: map (partner G g q) (seq 0 p)) /\ down_set G u k = true).
Proof.
  intros Hg G. assert (Gp := step_pos g p Hg). fold G in Gp. unfold down_set. split.
  - intros u u' k Hu Hu' A B. apply in_partners in Hu; [|assumption]. apply in_partners in Hu'; [|assumption].
    fold G in Hu, Hu'. apply Nat.eqb_eq in A, B.
    apply same_node with G; auto; [|congruence]. destruct Hu, Hu'; congruence.
  - intros k. rewrite Nat.eqb_eq. split.
    + intros E. exists (q / G * G + k mod G).
      assert (M := Nat.mod_upper_bound k G ltac:(lia)).
      split.
      * apply in_partners; [assumption|]. fold G. split; [apply node_div; assumption|].
        transitivity (k mod g); [|assumption].
        assert (X : (q / G * G + k mod G) mod G = k mod G) by (apply node_mod; assumption).
        rewrite <- (mod_mod_factor (q / G * G + k mod G) g (p + 1)) by lia. fold G.
        rewrite X. apply mod_mod_factor; lia.
      * apply Nat.eqb_eq. rewrite node_mod by assumption. reflexivity.
    + intros (u & Hu & E). apply Nat.eqb_eq in E. apply in_partners in Hu; [|assumption].
      destruct Hu as (_ & <-). rewrite <- (mod_mod_factor k g (p + 1)), <- (mod_mod_factor u g (p + 1)) by lia.
      fold G. congruence.
Qed.

(* groups of size M made of groups of size G *)
Lemma split_div t G c : 0 < G -> 0 < c -> t / G = t / (G * c) * c + (t mod (G * c)) / G.
Proof.
  intros HG Hc. rewrite Nat.mod_mul_r by lia.
  rewrite (Nat.mul_comm G ((t / G) mod c)), Nat.add_comm, (Nat.add_comm (t mod G)).
  rewrite node_div by (auto; apply Nat.mod_upper_bound; lia).
  rewrite <- Nat.div_div by lia. assert (X := Nat.div_mod (t / G) c ltac:(lia)). lia.
Qed.

Lemma mid_union g p M q : 0 < g -> 0 < M -> let G := g * (p + 1) in M mod G = 0 ->
  (forall u u' k, In u (q :: map (partner G g q) (seq 0 p)) -> In u' (q :: map (partner G g q) (seq 0 p)) ->
     mid_set M g u k = true -> mid_set M g u' k = true -> u = u') /\
  (forall k, mid_set M G q k = true <-> exists u, In u (q :: map (partner G g q) (seq 0 p)) /\ mid_set M g u k = true).
Proof.
  intros Hg HM G HGM. assert (Gp := step_pos g p Hg). fold G in Gp. unfold mid_set.
  apply Nat.mod_divides in HGM; [|lia]. destruct HGM as (c & EM).
  assert (Hc : 0 < c) by (destruct c; lia).
  assert (EMg : M = g * ((p + 1) * c)) by (rewrite EM; unfold G; lia).
  assert (Hc' : 0 < (p + 1) * c) by nia.
  assert (SG : forall t, t / G = t / M * c + (t mod M) / G).
  { intros t. rewrite EM. apply split_div; assumption. }
  assert (Sg : forall t, t / g = t / M * ((p + 1) * c) + (t mod M) / g).
  { intros t. rewrite EMg. apply split_div; assumption. }
  assert (GM : forall t u, t / G = u / G -> t / M = u / M).
  { intros t u E. rewrite EM, <- !Nat.div_div by lia. congruence. }
  split.
  - intros u u' k Hu Hu' A B. apply in_partners in Hu; [|assumption]. apply in_partners in Hu'; [|assumption].
    fold G in Hu, Hu'. apply Nat.eqb_eq in A, B. destruct Hu as (U1 & U2), Hu' as (U3 & U4).
    apply same_node with g; auto; [|congruence].
    rewrite (Sg u), (Sg u'). rewrite (GM u u') by congruence. congruence.
  - intros k. rewrite Nat.eqb_eq. split.
    + intros E.
      set (u := q / M * M + ((k mod M) / g * g + q mod g)).
      assert (Mq := Nat.mod_upper_bound q g ltac:(lia)).
      assert (Mk := Nat.mod_upper_bound k M ltac:(lia)).
      assert (R : (k mod M) / g * g + q mod g < M).
      { assert (X : (k mod M) / g < (p + 1) * c) by (apply Nat.div_lt_upper_bound; lia).
        revert X Mq. generalize ((k mod M) / g) (q mod g). intros a r X Mq.
        assert (Y : (a + 1) * g <= (p + 1) * c * g) by (apply Nat.mul_le_mono_r; lia). lia. }
      assert (u1 : u / M = q / M) by (apply node_div; assumption).
      assert (u2 : u mod M = (k mod M) / g * g + q mod g) by (apply node_mod; assumption).
      assert (u3 : (u mod M) / g = (k mod M) / g) by (rewrite u2; apply node_div; assumption).
      assert (u4 : u mod g = q mod g).
      { rewrite <- (mod_mod_factor u g ((p + 1) * c)) by assumption. rewrite <- EMg, u2. apply node_mod; assumption. }
      exists u. split; [|rewrite Nat.eqb_eq; congruence].
      apply in_partners; [assumption|]. fold G. split; [|assumption].
      rewrite (SG u), (SG q), u1. f_equal. rewrite <- E. unfold G.
      rewrite <- !Nat.div_div by lia. congruence.
    + intros (u & Hu & E). apply Nat.eqb_eq in E. apply in_partners in Hu; [|assumption]. fold G in Hu.
      destruct Hu as (U1 & U2).
      assert (X : (k mod M) / G = (u mod M) / G) by (unfold G; rewrite <- !Nat.div_div by lia; congruence).
      rewrite X. assert (Y := SG u). rewrite U1, (SG q) in Y. rewrite (GM u q U1) in Y. clear - Y. lia.
Qed.

(* ----- reduce_scatter stages ----- *)
Section Chain.
  Context {V : Type} (op : V -> V -> V).
  Context (op_assoc : forall a b c, op a (op b c) = op (op a b) c) (op_comm : forall a b, op a b = op b a).
  Context (N : nat) (alg : nat -> list block) (x : nat -> nat -> V).

  Definition holds (off : nat) (grp : nat -> nat -> Prop) (P : nat -> nat -> bool) (st : nat -> nat -> V) : Prop :=
    forall q l, q < N -> grp l q ->
      Some (st q (l + off)) = combine op (map (fun k => x k l) (filter (P q) (seq 0 N))).
  Definition same_group (g a b : nat) : Prop := a / g = b / g.

  Lemma rs_one g p first last st blk : 0 < g -> 0 < p -> N mod (g * (p + 1)) = 0 ->
    (forall q, blk q = rs_block N (g * (p + 1)) p first last q) ->
    holds (rs_soff N first) (same_group (g * (p + 1))) (down_set (g * (p + 1))) st ->
    holds (rs_dest last * N) (same_group g) (down_set g) (stage op N blk st).
  Proof.
    intros Hg Hp HN Hb H q l Hq Hl. unfold same_group in *.
    rewrite (rs_stage_value g p N Hg Hp first last HN (fun y => blank (y mod N)) (blanks_mod N) blk Hb op st
               op_assoc op_comm q l Hq Hl).
    destruct (down_union g p q Hg) as (U1 & U2).
    apply (combine_union op op_assoc op_comm (fun k => x k l) N (down_set (g * (p + 1)))).
    - apply NoDup_partners; assumption.
    - intros u Hu. apply in_partners in Hu; [|assumption]. destruct Hu as (A & B).
      apply (H u l).
      + apply group_lt with (g * (p + 1)) q; auto. apply step_pos; assumption.
      + rewrite A. apply small_in_big; assumption.
    - intros u u' k Hu Hu' _. apply U1; assumption.
    - intros k _. apply U2.
  Qed.

  Lemma rs_chain ports : forall g first start st, 0 < g -> ports <> [] -> Forall (fun p => p <> 0%Z) ports ->
    N mod (g * product ports) = 0 ->
    (forall q m, m < length ports ->
       nth (start + m) (alg q) empty_block = nth m (rs_stages N (g * product ports) first ports q) empty_block) ->
    holds (rs_soff N first) (same_group (g * product ports)) (down_set (g * product ports)) st ->
    holds N (same_group g) (down_set g) (run_from op N alg start (length ports) st).
  Proof.
    induction ports as [|p r IH]; intros g first start st Hg Hne Hall HN Hs H; [congruence|].
    inversion Hall as [|? ? Hp Hr]; subst.
    assert (Wp : 0 < width p) by (unfold width; lia).
    cbn [length]. rewrite run_from_S.
    set (g' := g * product r) in *.
    assert (EG : g * product (p :: r) = g' * (width p + 1)) by (rewrite product_cons; unfold g'; lia).
    assert (Hg' : 0 < g') by (unfold g'; assert (X := product_pos r); nia).
    rewrite EG in HN, Hs, H.
    assert (Hdiv : g' * (width p + 1) / (width p + 1) = g') by (apply Nat.div_mul; lia).
    assert (H1 : forall last, (last = match r with [] => true | _ => false end) ->
      holds (rs_dest last * N) (same_group g') (down_set g') (stage op N (nth_stage alg start) st)).
    { intros last El. apply (rs_one g' (width p) first last st); auto.
      intros q. specialize (Hs q 0 ltac:(cbn; lia)). rewrite Nat.add_0_r in Hs. subst last. exact Hs. }
    destruct r as [|p' r].
    - cbn [length]. rewrite run_from_0. specialize (H1 true eq_refl). unfold rs_dest in H1.
      rewrite Nat.mul_1_l in H1. unfold g' in H1. cbn in H1. rewrite Nat.mul_1_r in H1. exact H1.
    - apply (IH g false); auto; [congruence| | |].
      + fold g'. apply mod_of_factor with (width p + 1); [assumption|lia|assumption].
      + fold g'. intros q m Hm. specialize (Hs q (S m) ltac:(cbn in *; lia)).
        rewrite Nat.add_succ_r in Hs. rewrite Nat.add_succ_l. rewrite Hs.
        cbn [rs_stages nth]. rewrite Hdiv. reflexivity.
      + fold g'. exact (H1 false eq_refl).
  Qed.

  Lemma holds_input st : (forall q l, q < N -> l < N -> st q l = x q l) ->
    0 < N -> holds 0 (same_group N) (down_set N) st.
  Proof using Type.
    clear alg op_assoc op_comm.
    intros H HN q l Hq Hl. unfold same_group in Hl. rewrite (Nat.div_small q) in Hl by assumption.
    assert (Ll : l < N) by (apply Nat.div_small_iff in Hl; lia).
    rewrite Nat.add_0_r, H by assumption.
    replace (filter (down_set N q) (seq 0 N)) with (seq q 1); [reflexivity|].
    symmetry. apply filter_seq; [lia|]. intros n Hn. unfold down_set.
    rewrite !Nat.mod_small by assumption. rewrite Nat.eqb_eq. lia.
  Qed.

  Lemma holds_all off grp P st q l : 0 < N -> holds off grp P st -> q < N -> grp l q ->
    (forall k, k < N -> P q k = true) -> st q (l + off) = total op (fun k => x k l) N.
  Proof using op_assoc op_comm.
    clear alg.
    intros HN H Hq Hl HP. specialize (H q l Hq Hl).
    rewrite filter_all in H by (intros k Hk; apply in_seq in Hk; apply HP; lia).
    rewrite (combine_total op op_assoc op_comm) in H by assumption. congruence.
  Qed.

  (* ----- the middle stages ----- *)
  Lemma mid_one g p M first st blk : 0 < g -> 0 < p -> 0 < M -> M mod (g * (p + 1)) = 0 -> N mod M = 0 ->
    (forall q, blk q = mid_block N M g p first q) ->
    holds (mid_soff N first) (same_group M) (mid_set M g) st ->
    holds N (same_group M) (mid_set M (g * (p + 1))) (stage op N blk st).
  Proof.
    intros Hg Hp HM HGM HMN Hb H q l Hq Hl. unfold same_group in *.
    assert (E := mid_stage_value g p M N Hg Hp HM first HGM HMN (fun y => blank (y mod N)) (blanks_mod N) blk Hb op st
               op_assoc op_comm q l Hq Hl).
    rewrite Nat.mul_1_l in E. rewrite E.
    destruct (mid_union g p M q Hg HM HGM) as (U1 & U2).
    apply (combine_union op op_assoc op_comm (fun k => x k l) N (mid_set M g)).
    - apply NoDup_partners; assumption.
    - intros u Hu. apply in_partners in Hu; [|assumption]. destruct Hu as (A & B).
      assert (A' : u / M = q / M) by (apply (big_in_middle g p M N Hg Hp HM first HGM HMN (fun y => blank (y mod N))); assumption).
      apply (H u l); [|congruence]. apply group_lt with M q; auto.
    - intros u u' k Hu Hu' _. apply U1; assumption.
    - intros k _. apply U2.
  Qed.

  Fixpoint mid_stages (M g : nat) (first : bool) (ports : list Z) (q : nat) : list block :=
    match ports with
    | [] => []
    | p :: r => mid_block N M g (width p) first q :: mid_stages M (g * (width p + 1)) false r q
    end.
  Lemma mid_stages_length M ports : forall g first q, length (mid_stages M g first ports q) = length ports.
  Proof. induction ports; intros; cbn; auto. Qed.

  Lemma mid_chain M ports : forall g first start st, 0 < g -> 0 < M -> Forall (fun p => p <> 0%Z) ports ->
    M mod (g * product ports) = 0 -> N mod M = 0 -> (first = true -> ports <> []) ->
    (forall q m, m < length ports ->
       nth (start + m) (alg q) empty_block = nth m (mid_stages M g first ports q) empty_block) ->
    holds (mid_soff N first) (same_group M) (mid_set M g) st ->
    holds N (same_group M) (mid_set M (g * product ports)) (run_from op N alg start (length ports) st).
  Proof.
    induction ports as [|p r IH]; intros g first start st Hg HM Hall HGM HMN Hf Hs H.
    - cbn [length]. rewrite run_from_0. cbn. rewrite Nat.mul_1_r.
      destruct first; [exfalso; apply Hf; reflexivity|]. exact H.
    - inversion Hall as [|? ? Hp Hr]; subst.
      assert (Wp : 0 < width p) by (unfold width; lia).
      cbn [length]. rewrite run_from_S, product_cons, Nat.mul_assoc.
      rewrite product_cons, Nat.mul_assoc in HGM.
      apply (IH _ false); auto; try discriminate.
      + apply step_pos; assumption.
      + intros q m Hm. specialize (Hs q (S m) ltac:(cbn; lia)). rewrite Nat.add_succ_r in Hs. exact Hs.
      + assert (HGM' : M mod (g * (width p + 1)) = 0)
          by (apply mod_of_factor with (product r); auto using step_pos, product_pos).
        apply (mid_one g (width p) M first st); auto.
        intros q. specialize (Hs q 0 ltac:(cbn; lia)). rewrite Nat.add_0_r in Hs. exact Hs.
  Qed.
End Chain.

(* ----- reduce_scatter_core ----- *)
Lemma rs_stages_length lb ports : forall g first q, length (rs_stages lb g first ports q) = length ports.
Proof. induction ports; intros; cbn; auto. Qed.

Lemma reduce_scatter_length ports t : length (reduce_scatter_core ports t) = length ports + 2.
Proof. unfold reduce_scatter_core. cbn [length]. rewrite app_length, rs_stages_length. cbn; lia. Qed.

Lemma rs_first_input lb n f : n < lb -> input_line (rs_first lb) n = Some f <-> f = n.
Proof.
  intros Hn. unfold input_line, rs_first. cbn [lines].
  rewrite (recvfrom_some _ _ n [((-1)%Z, n)]).
  - cbn [existsb is_user fst Z.eqb Pos.eqb orb]. rewrite frac_writes. cbn [frac blank].
    rewrite Nat.mod_small by assumption. split; [intros [=]; auto|intros ->; reflexivity].
  - apply in_map_iff. exists n. split; [reflexivity|apply in_seq; lia].
  - intros v Hv. apply in_map_iff in Hv. destruct Hv as (l & [=] & _). subst. reflexivity.
Qed.

Lemma rs_first_placed {V} N (x : nat -> nat -> V) st : 
  (forall t, t < N -> placed (rs_first N) (x t) (st t)) -> forall q l, q < N -> l < N -> st q l = x q l.
Proof.
  intros H q l Hq Hl. apply (H q Hq l l).
  - cbn [num_lines rs_first]. lia.
  - apply rs_first_input; auto.
Qed.

Lemma rs_last_output lb t n : t < lb ->
  output_line (rs_last lb t) n = if n =? lb + t then Some t else None.
Proof.
  intros Ht. unfold output_line, rs_last. cbn [lines].
  assert (D : 2 * lb / 2 = lb) by (rewrite Nat.mul_comm; apply Nat.div_mul; lia). rewrite D.
  destruct (Nat.eqb_spec n (lb + t)) as [->|E].
  - rewrite (sendto_some _ _ (lb + t) [((-1)%Z, t)]).
    + cbn [existsb is_user fst Z.eqb Pos.eqb orb]. rewrite frac_writes. cbn [frac blank].
      f_equal. symmetry. apply Nat.mod_unique with 1; lia.
    + apply in_flat_map. exists (lb + t). split; [apply in_seq; lia|].
      replace (lb + t - lb) with t by lia. rewrite Nat.eqb_refl. now left.
    + intros v Hv. apply in_flat_map in Hv. destruct Hv as (l & Hl & Hv).
      destruct (Nat.eqb_spec (l - lb) t); [|destruct Hv]. destruct Hv as [[=]|[]]. subst. repeat f_equal. lia.
  - rewrite sendto_none; [reflexivity|].
    intros v Hv. apply in_flat_map in Hv. destruct Hv as (l & Hl & Hv). apply in_seq in Hl.
    destruct (Nat.eqb_spec (l - lb) t); [|destruct Hv]. destruct Hv as [[=]|[]]. subst. lia.
Qed.

Lemma last_cons_app {A} (d a : A) l b : last (a :: l ++ [b]) d = b.
Proof. rewrite app_comm_cons. apply last_last. Qed.

Lemma idle_last {V} (op : V -> V -> V) N blk st q n NL b ws : blanks b ->
  (forall q, blk q = Block NL (apply_writes b ws)) -> (forall w, In w ws -> exists v, snd w = Send v) ->
  stage op N blk st q n = st q n.
Proof.
  intros Hb Hblk H. apply idle_stage; intros m; rewrite Hblk; cbn [lines]; apply only_sends; assumption.
Qed.

Lemma reduce_scatter_correct {V} (op : V -> V -> V)
  (op_assoc : forall a b c, op a (op b c) = op (op a b) c) (op_comm : forall a b, op a b = op b a)
  ports alg (Ha : forall t, alg t = reduce_scatter_core ports t) (x : nat -> nat -> V) st :
  ports <> [] -> Forall (fun p => p <> 0%Z) ports ->
  let N := ports_product ports in
  (forall t, t < N -> placed (first_block (alg t)) (x t) (st t)) ->
  forall t, t < N ->
    delivered (last_block (alg t)) (fun f => f = t)
              (fun f => total op (fun k => x k f) N)
              (execute op N alg (length (alg t)) st t).
Proof.
  intros Hne Hall N H0 t Ht. rewrite execute_eq, Ha, reduce_scatter_length.
  assert (H0' : forall t, t < N -> placed (first_block (reduce_scatter_core ports t)) (x t) (st t))
    by (intros u Hu; rewrite <- Ha; apply H0; assumption).
  replace (length ports + 2 - 1) with (length ports + 1) by lia. rewrite run_from_add.
  assert (HN : N = product ports) by apply ports_product_eq.
  assert (Np : 0 < N) by lia.
  assert (H : holds op N x N (same_group 1) (down_set 1) (run_from op N alg 1 (length ports) st)).
  { apply (rs_chain op op_assoc op_comm N _ x ports 1 true); auto; rewrite Nat.mul_1_l, <- HN.
    - apply Nat.mod_same; lia.
    - intros q m Hm. rewrite Ha. unfold reduce_scatter_core. cbn [nth Nat.add].
      rewrite app_nth1 by (rewrite rs_stages_length; assumption). reflexivity.
    - refine (holds_input op N x st _ Np). exact (rs_first_placed N x st H0'). }
  set (s := run_from op N alg 1 (length ports) st) in *.
  assert (Hlast : forall q, nth_stage alg (1 + length ports) q = rs_last N q).
  { intros q. unfold nth_stage. rewrite Ha. unfold reduce_scatter_core. cbn [nth Nat.add].
    rewrite app_nth2; rewrite rs_stages_length; [|lia].
    replace (length ports - length ports) with 0 by lia. reflexivity. }
  unfold last_block, reduce_scatter_core at 1. fold N. rewrite last_cons_app.
  assert (St : forall n, run_from op N alg (1 + length ports) 1 s t n = s t n).
  { intros n. unfold run_from. cbn [seq map run fold_left].
    apply idle_stage; intros m; rewrite Hlast; unfold rs_last; cbn [lines];
      apply only_sends; try apply blanks_mod; intros w Hw; apply in_flat_map in Hw;
      destruct Hw as (l & _ & Hw); (destruct (_ =? _); [destruct Hw as [<-|[]]; eexists; reflexivity|destruct Hw]). }
  split.
  - intros n f Hn Hf. rewrite rs_last_output in Hf by assumption.
    destruct (Nat.eqb_spec n (N + t)) as [->|]; [|discriminate]. injection Hf as <-. split; [reflexivity|].
    rewrite St, Nat.add_comm.
    apply (holds_all op op_assoc op_comm N x N (same_group 1) (down_set 1)); auto. reflexivity.
  - intros f ->. exists (N + t). cbn [num_lines rs_last]. split; [lia|].
    rewrite rs_last_output, Nat.eqb_refl by assumption. reflexivity.
Qed.

(* ----- allreduce_core ----- *)
Lemma positive_product_eq neg pos : Forall (fun p => (p < 0)%Z) neg -> Forall (fun p => (0 < p)%Z) pos ->
  positive_product (neg ++ pos) = product pos.
Proof.
  intros Hn Hp. unfold positive_product.
  set (F := fun a p => if (0 <? p)%Z then a * (width p + 1) else a).
  assert (A : forall a, fold_left F neg a = a).
  { induction Hn as [|p r Hp' _ IH]; intros a; [reflexivity|]. cbn [fold_left].
    unfold F at 2. replace (0 <? p)%Z with false by lia. apply IH. }
  assert (B : forall a, fold_left F pos a = a * product pos).
  { induction Hp as [|p r Hp' _ IH]; intros a; [cbn; lia|]. cbn [fold_left].
    unfold F at 2. replace (0 <? p)%Z with true by lia. rewrite IH, product_cons. lia. }
  rewrite fold_left_app, A, B. lia.
Qed.

Lemma ar_down_eq lb neg pos : Forall (fun p => (p < 0)%Z) neg -> Forall (fun p => (0 < p)%Z) pos ->
  forall g first q, ar_down lb (g * product neg) first (neg ++ pos) q =
    (rs_stages lb (g * product neg) first neg q, g, match neg with [] => first | _ => false end, pos).
Proof.
  intros Hn Hp. induction Hn as [|p r Hp' Hr IH]; intros g first q.
  - cbn [app rs_stages]. cbn [product fold_right]. rewrite Nat.mul_1_r.
    destruct Hp as [|p' r' Hp' _]; [reflexivity|]. cbn [ar_down].
    replace (p' <? 0)%Z with false by lia. reflexivity.
  - cbn [app ar_down]. replace (p <? 0)%Z with true by lia.
    rewrite product_cons. replace (g * ((width p + 1) * product r)) with (g * product r * (width p + 1)) by lia.
    rewrite Nat.div_mul by lia. rewrite IH. cbn [rs_stages]. rewrite Nat.div_mul by lia.
    replace (match r ++ pos with [] => true | q0 :: _ => (0 <=? q0)%Z end) with (match r with [] => true | _ => false end).
    + destruct r; reflexivity.
    + destruct Hr as [|p' r' Hp'' _]; cbn [app].
      * destruct Hp as [|p'' r'' Hp'' _]; [reflexivity|lia].
      * lia.
Qed.

Lemma product_ge ports : Forall (fun p => (0 < p)%Z) ports -> ports <> [] -> 1 < product ports.
Proof.
  intros H Hne. destruct H as [|p r Hp Hr]; [congruence|]. rewrite product_cons.
  assert (X := product_pos r). assert (0 < width p) by (unfold width; lia). nia.
Qed.

Lemma ar_middle_eq lb ag mid : Forall (fun p => (0 < p)%Z) mid ->
  forall g first q, 0 < g -> ar_middle lb (g * product mid) g first (mid ++ ag) q =
    (mid_stages lb (g * product mid) g first mid q, g * product mid, ag).
Proof.
  intros Hm. induction Hm as [|p r Hp Hr IH]; intros g first q Hg.
  - cbn [app mid_stages product fold_right]. rewrite Nat.mul_1_r. destruct ag as [|a ag]; [reflexivity|].
    cbn [ar_middle]. rewrite Nat.ltb_irrefl. reflexivity.
  - assert (X : 1 < product (p :: r)) by (apply product_ge; [constructor; assumption|congruence]).
    cbn [app ar_middle]. replace (g <? g * product (p :: r)) with true.
    2:{ symmetry. apply Nat.ltb_lt. revert X. generalize (product (p :: r)). intros P X. clear - Hg X. nia. }
    rewrite product_cons, Nat.mul_assoc. rewrite IH by (apply step_pos; assumption). reflexivity.
Qed.

Lemma ar_up_eq lb ports : forall g q, ar_up lb g ports q = up_stages lb (2 * lb) (fun y => blank (y mod lb)) g ports q.
Proof. induction ports as [|p r IH]; intros g q; [reflexivity|]. cbn [ar_up up_stages]. rewrite IH. reflexivity. Qed.

Lemma product_app a b : product (a ++ b) = product a * product b.
Proof. induction a as [|p r IH]; [symmetry; apply Nat.mul_1_l|]. cbn [app]. rewrite !product_cons, IH. lia. Qed.

Section Allreduce.
  Context (neg mid ag : list Z).
  Context (Hneg : Forall (fun p => (p < 0)%Z) neg) (Hmid : Forall (fun p => (0 < p)%Z) mid)
          (Hag : Forall (fun p => (0 < p)%Z) ag).
  Context (Hinv : product ag = product neg) (Hne : neg ++ mid ++ ag <> []).
  Let ports := neg ++ mid ++ ag.
  Let N := product mid * product ag.
  Let M := product mid.
  Let firstm := match neg with [] => true | _ => false end.

  Lemma allreduce_core_eq t : allreduce_core ports t =
    rs_first N :: rs_stages N N true neg t ++ mid_stages N M 1 firstm mid t ++
                  up_stages N (2 * N) (fun y => blank (y mod N)) M ag t ++ [ar_last N].
  Proof.
    unfold allreduce_core, ports.
    assert (EN : positive_product (neg ++ mid ++ ag) = N).
    { rewrite positive_product_eq; [apply product_app|assumption|apply Forall_app; split; assumption]. }
    rewrite EN.
    assert (ENM : N = M * product neg) by (unfold N, M; rewrite Hinv; reflexivity).
    assert (ED := ar_down_eq N neg (mid ++ ag) Hneg ltac:(apply Forall_app; split; assumption) M true t).
    rewrite <- ENM in ED. rewrite ED.
    assert (EM := ar_middle_eq N ag mid Hmid 1 firstm t ltac:(lia)). rewrite Nat.mul_1_l in EM.
    fold M in EM. fold firstm. rewrite EM. rewrite ar_up_eq. reflexivity.
  Qed.

  Lemma allreduce_length t : length (allreduce_core ports t) = length ports + 2.
  Proof.
    rewrite allreduce_core_eq. cbn [length].
    rewrite !app_length, rs_stages_length, mid_stages_length, up_stages_length. unfold ports.
    rewrite !app_length. cbn [length]. lia.
  Qed.

  Lemma firstm_cases : (neg = [] /\ firstm = true) \/ (neg <> [] /\ firstm = false).
  Proof. unfold firstm. clear. destruct neg; [now left|right; split; congruence]. Qed.

  Lemma neg_nil_ag : neg = [] -> ag = [] /\ mid <> [].
  Proof.
    intros E. assert (A : ag = []).
    { destruct Hag as [|a r Ha Hr] eqn:?; [reflexivity|exfalso].
      assert (X := product_ge (a :: r) Hag ltac:(congruence)). rewrite Hinv, E in X. cbn in X. lia. }
    split; [assumption|]. intros Em. apply Hne. rewrite E, Em, A. reflexivity.
  Qed.

  Context {V : Type} (op : V -> V -> V).
  Context (op_assoc : forall a b c, op a (op b c) = op (op a b) c) (op_comm : forall a b, op a b = op b a).
  Context (x : nat -> nat -> V) (st : nat -> nat -> V).
  Context (alg : nat -> list block) (Ha : forall t, alg t = allreduce_core ports t).

  Lemma nonzero_neg : Forall (fun p => p <> 0%Z) neg.
  Proof. clear - Hneg. eapply Forall_impl; [|exact Hneg]. cbn; lia. Qed.
  Lemma nonzero_mid : Forall (fun p => p <> 0%Z) mid.
  Proof. clear - Hmid. eapply Forall_impl; [|exact Hmid]. cbn; lia. Qed.

  Lemma allreduce_correct_aux :
    (forall t, t < N -> placed (first_block (alg t)) (x t) (st t)) ->
    forall t, t < N ->
      delivered (last_block (alg t)) (fun f => f < N)
                (fun f => total op (fun k => x k f) N)
                (execute op N alg (length (alg t)) st t).
  Proof.
    intros H0 t Ht. rewrite execute_eq, Ha, allreduce_length.
    replace (length ports + 2 - 1) with (length neg + (length mid + (length ag + 1)))
      by (unfold ports; rewrite !app_length; lia).
    rewrite !run_from_add.
    assert (Mp : 0 < M) by apply product_pos. assert (Np : 0 < N) by lia.
    assert (ENM : N = M * product neg) by (unfold N, M; rewrite Hinv; reflexivity).
    assert (HMN : N mod M = 0) by (rewrite ENM, Nat.mul_comm; apply Nat.mod_mul; lia).
    assert (Halg : forall q m, nth (1 + m) (alg q) empty_block =
       nth m (rs_stages N N true neg q ++ mid_stages N M 1 firstm mid q ++
                  up_stages N (2 * N) (fun y => blank (y mod N)) M ag q ++ [ar_last N]) empty_block).
    { intros q m. rewrite Ha, allreduce_core_eq. reflexivity. }
    (* reduce-scatter *)
    set (s1 := run_from op N alg 1 (length neg) st).
    assert (H1 : holds op N x (mid_soff N firstm) (same_group M) (mid_set M 1) s1).
    { assert (HI : holds op N x 0 (same_group N) (down_set N) st).
      { refine (holds_input op N x st _ Np). apply (rs_first_placed N x st). intros q Hq. specialize (H0 q Hq).
        unfold first_block in H0. rewrite Ha, allreduce_core_eq in H0. exact H0. }
      assert (H1 : holds op N x (mid_soff N firstm) (same_group M) (down_set M) s1).
      { unfold s1. destruct firstm_cases as [(En & Ef)|(En & Ef)]; rewrite Ef.
        - unfold mid_soff. assert (Ep : product neg = 1) by (rewrite En; reflexivity).
          rewrite Ep, Nat.mul_1_r in ENM. rewrite En. cbn [length]. rewrite run_from_0, <- ENM. exact HI.
        - unfold mid_soff.
          apply (rs_chain op op_assoc op_comm N alg x neg M true); auto.
          + apply nonzero_neg.
          + rewrite <- ENM. apply Nat.mod_same. lia.
          + intros q m Hm. rewrite Halg, app_nth1 by (rewrite rs_stages_length; assumption).
            rewrite <- ENM. reflexivity.
          + rewrite <- ENM. exact HI. }
      intros q l Hq Hl. rewrite (H1 q l Hq Hl). do 2 f_equal. apply filter_ext. intros k.
      unfold down_set, mid_set. rewrite !Nat.div_1_r. reflexivity. }
    (* middle *)
    set (s2 := run_from op N alg (1 + length neg) (length mid) s1).
    assert (H2 : holds op N x N (same_group M) (mid_set M M) s2).
    { unfold s2. replace M with (1 * product mid) at 3 by (rewrite Nat.mul_1_l; reflexivity).
      apply (mid_chain op op_assoc op_comm N alg x M mid 1 firstm); auto.
      - apply nonzero_mid.
      - rewrite Nat.mul_1_l. apply Nat.mod_same. fold M; lia.
      - intros Ef. destruct firstm_cases as [(En & _)|(_ & E)]; [|congruence]. apply neg_nil_ag. assumption.
      - intros q m Hm. rewrite <- Nat.add_assoc, Halg.
        rewrite app_nth2; rewrite rs_stages_length; [|lia].
        replace (length neg + m - length neg) with m by lia.
        rewrite app_nth1 by (rewrite mid_stages_length; assumption). reflexivity. }
    (* allgather *)
    set (s3 := run_from op N alg (1 + length neg + length mid) (length ag) s2).
    assert (H3 : gathered N N (fun l => total op (fun k => x k l) N) N s3).
    { unfold s3. assert (EN : N = M * product ag) by reflexivity.
      change (gathered N N (fun l => total op (fun k => x k l) N) (M * product ag)
        (run_from op N alg (1 + length neg + length mid) (length ag) s2)).
      apply (ag_chain op N N (2 * N) alg (fun l => total op (fun k => x k l) N) ltac:(lia)
               (fun y => blank (y mod N)) (blanks_mod N) ag M).
      - assumption.
      - rewrite <- EN. apply Nat.mod_same; lia.
      - intros q m Hm. rewrite <- !Nat.add_assoc, Halg.
        rewrite app_nth2; rewrite rs_stages_length; [|lia].
        replace (length neg + (length mid + m) - length neg) with (length mid + m) by lia.
        rewrite app_nth2; rewrite mid_stages_length; [|lia].
        replace (length mid + m - length mid) with m by lia.
        rewrite app_nth1 by (rewrite up_stages_length; assumption). reflexivity.
      - intros q l Hq Hl. apply (holds_all op op_assoc op_comm N x N (same_group M) (mid_set M M)); auto.
        intros k Hk. unfold mid_set. rewrite !Nat.div_small by (apply Nat.mod_upper_bound; lia). reflexivity. }
    assert (Hlast : forall q, nth_stage alg (1 + length neg + length mid + length ag) q = ar_last N).
    { intros q. unfold nth_stage. rewrite <- !Nat.add_assoc, Halg.
      rewrite app_nth2; rewrite rs_stages_length; [|lia].
      replace (length neg + (length mid + length ag) - length neg) with (length mid + length ag) by lia.
      rewrite app_nth2; rewrite mid_stages_length; [|lia].
      replace (length mid + length ag - length mid) with (length ag) by lia.
      rewrite app_nth2; rewrite up_stages_length; [|lia].
      replace (length ag - length ag) with 0 by lia. reflexivity. }
    assert (LB : last_block (allreduce_core ports t) = ar_last N).
    { unfold last_block. rewrite allreduce_core_eq, !app_assoc. apply last_cons_app. }
    rewrite LB.
    assert (St : forall n, run_from op N alg (1 + length neg + length mid + length ag) 1 s3 t n = s3 t n).
    { intros n. unfold run_from. cbn [seq map run fold_left].
      apply (idle_last op N _ s3 t n (2 * N) (fun y => blank (y mod N))
               (map (fun line => (line, Send [((-1)%Z, line mod N)])) (seq N N)) (blanks_mod N)).
      - intros q. rewrite Hlast. reflexivity.
      - intros w Hw. apply in_map_iff in Hw. destruct Hw as (l & <- & _). eexists; reflexivity. }
    assert (O : forall n, output_line (ar_last N) n = if (N <=? n) && (n <? N + N) then Some (n mod N) else None).
    { intros n. unfold output_line, ar_last. cbn [lines].
      rewrite (sendto_outputs (fun l => l mod N)) by apply blanks_mod.
      rewrite frac_writes. destruct ((N <=? n) && (n <? N + N)); reflexivity. }
    split.
    - intros n f Hn Hf. rewrite O in Hf. destruct ((N <=? n) && (n <? N + N)) eqn:B; [|discriminate].
      injection Hf as <-. apply andb_true_iff in B. destruct B as [B1 B2].
      apply Nat.leb_le in B1. apply Nat.ltb_lt in B2.
      assert (E : n mod N = n - N).
      { symmetry. apply Nat.mod_unique with 1; lia. }
      rewrite E. split; [lia|]. rewrite St. replace n with ((n - N) + N) at 1 by lia.
      apply H3; [assumption|]. rewrite !Nat.div_small by lia. reflexivity.
    - intros f Hf. exists (f + N). cbn [num_lines ar_last]. split; [lia|].
      rewrite O. replace ((N <=? f + N) && (f + N <? N + N)) with true.
      + f_equal. symmetry. apply Nat.mod_unique with 1; lia.
      + symmetry. apply andb_true_iff. split; [apply Nat.leb_le|apply Nat.ltb_lt]; lia.
  Qed.
End Allreduce.

(* ----- through ext_mpi_generate_allreduce_recursive ----- *)
From Verif Require Import RecursiveSpec.

Lemma generate_allgather ports t : generate_recursive true ports t = allgather_core ports t.
Proof. reflexivity. Qed.
Lemma generate_reduce_scatter ports t : (last ports 0 < 0)%Z ->
  generate_recursive false ports t = reduce_scatter_core ports t.
Proof. intros H. unfold generate_recursive. replace (last ports 0 <? 0)%Z with true by lia. reflexivity. Qed.
Lemma last_positive l : Forall (fun p => (0 < p)%Z) l -> forall d, l <> [] -> (0 < last l d)%Z.
Proof.
  intros H d. induction H as [|p r Hp Hr IH]; [congruence|]. intros _. destruct r as [|p' r]; [exact Hp|].
  apply IH. discriminate.
Qed.
Lemma generate_allreduce down mid up t : balanced down mid up ->
  generate_recursive false (down ++ mid ++ up) t = allreduce_core (down ++ mid ++ up) t.
Proof.
  intros (Hd & Hm & Hu & E & Hne). unfold generate_recursive.
  assert (X : mid ++ up <> []).
  { intros X. apply app_eq_nil in X. destruct X as [-> ->]. rewrite app_nil_r in Hne. cbn in E.
    destruct Hd as [|p r Hp Hr]; [congruence|].
    assert (Y := product_pos r). change (product r) with (node_count r) in Y.
    cbn [node_count fold_right] in E. fold (node_count r) in E. nia. }
  assert (L : (0 < last (down ++ mid ++ up) 0)%Z).
  { destruct (exists_last X) as (l & a & El). rewrite El, app_assoc, last_last.
    assert (P : Forall (fun p => (0 < p)%Z) (mid ++ up)) by (apply Forall_app; split; assumption).
    rewrite El in P. apply Forall_app in P. destruct P as [_ P]. inversion P; assumption. }
  replace (last (down ++ mid ++ up) 0 <? 0)%Z with false by lia. reflexivity.
Qed.

Lemma generated_allgather {V} (op : V -> V -> V) ports (x : nat -> V) st :
  let N := node_count ports in
  (forall t, t < N -> placed (first_block (generate_recursive true ports t)) (fun _ => x t) (st t)) ->
  forall t, t < N ->
    delivered (last_block (generate_recursive true ports t)) (fun f => f < N) x
              (execute op N (generate_recursive true ports) (length (generate_recursive true ports t)) st t).
Proof.
  assert (E : node_count ports = ports_product ports) by (symmetry; apply ports_product_eq).
  intros N. unfold N. rewrite E. exact (allgather_correct op ports x st).
Qed.

Lemma generated_reduce_scatter {V} (op : V -> V -> V) ports (x : nat -> nat -> V) st :
  (forall a b c, op a (op b c) = op (op a b) c) -> (forall a b, op a b = op b a) ->
  nonzero ports -> (last ports 0 < 0)%Z ->
  let N := node_count ports in
  (forall t, t < N -> placed (first_block (generate_recursive false ports t)) (x t) (st t)) ->
  forall t, t < N ->
    delivered (last_block (generate_recursive false ports t)) (fun f => f = t)
              (fun f => total op (fun k => x k f) N)
              (execute op N (generate_recursive false ports) (length (generate_recursive false ports t)) st t).
Proof.
  intros A C Hz Hl. assert (E : node_count ports = ports_product ports) by (symmetry; apply ports_product_eq).
  intros N. unfold N. rewrite E.
  apply (reduce_scatter_correct op A C ports (generate_recursive false ports)).
  - intros t. apply generate_reduce_scatter. assumption.
  - intros ->. cbn in Hl. lia.
  - assumption.
Qed.

Lemma generated_allreduce {V} (op : V -> V -> V) down mid up (x : nat -> nat -> V) st :
  (forall a b c, op a (op b c) = op (op a b) c) -> (forall a b, op a b = op b a) ->
  balanced down mid up ->
  let ports := down ++ mid ++ up in
  let N := node_count (mid ++ up) in
  (forall t, t < N -> placed (first_block (generate_recursive false ports t)) (x t) (st t)) ->
  forall t, t < N ->
    delivered (last_block (generate_recursive false ports t)) (fun f => f < N)
              (fun f => total op (fun k => x k f) N)
              (execute op N (generate_recursive false ports) (length (generate_recursive false ports t)) st t).
Proof.
  intros A C B ports N. assert (E : N = product mid * product up) by apply product_app.
  rewrite E. assert (B' := B). destruct B as (Hd & Hm & Hu & E' & Hne).
  apply (allreduce_correct_aux down mid up Hd Hm Hu E' Hne op A C x st (generate_recursive false ports)).
  intros t. apply generate_allreduce. assumption.
Qed.
