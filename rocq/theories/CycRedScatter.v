(* The cyclic reduce_scatter: the reducing part alone. *)
From Verif Require Import Base SchedModel SchedSpec SchedProofs MatchProofs CombineProofs CyclicSpec CyclicProofs CycRedModel ShiftProofs LooseSpec LooseChain CycRedDown.
Local Ltac Zify.zify_post_hook ::= idtac.

Fixpoint down_fam (N s g : nat) (ports : list nat) (prev : nat -> block) : list (nat -> block) :=
  match ports with
  | [] => []
  | p :: r =>
    let x := fun q => cr_send N s (shrink g p) p q (prev q) in
    let y := fun q => cr_add s (x q) in
    x :: y :: down_fam N (shrink s p) (shrink g p) r y
  end.
Lemma down_at N ports : forall s g prev q, cr_down N s g ports q (prev q) = at_node q (down_fam N s g ports prev).
Proof.
  induction ports as [|p r IH]; intros s g prev q; [reflexivity|]. cbn [cr_down down_fam at_node map]. f_equal. f_equal.
  now rewrite (IH (shrink s p) (shrink g p) (fun q => cr_add s (cr_send N s (shrink g p) p q (prev q))) q).
Qed.

Lemma send_channels s j : 0 < j -> 0 < s -> forall i, i < (s - 1) / j <-> (i + 1) * j < s.
Proof.
  intros Hj Hs i. pose proof (Nat.div_mod (s - 1) j ltac:(lia)) as D. pose proof (Nat.mod_upper_bound (s - 1) j ltac:(lia)) as M.
  revert D M. generalize ((s - 1) / j) ((s - 1) mod j). intros a m D M. split; intros H.
  - assert ((i + 1) * j <= a * j) by (apply Nat.mul_le_mono_r; lia). lia.
  - destruct (Nat.lt_ge_cases i a); auto. assert ((a + 1) * j <= (i + 1) * j) by (apply Nat.mul_le_mono_r; lia). lia.
Qed.
Lemma send_row N s p prev : 0 < s <= N -> by_row N s prev ->
  by_row N s (fun q => cr_send N s (shrink s p) p q (prev q)).
Proof.
  intros Hs Hprev q n Hq Hn. destruct (shrink_bounds s p (proj1 Hs)) as [Hj _].
  rewrite (send_frac N s p (proj1 Hs) (proj2 Hs) prev Hprev (shrink s p) ((s - 1) / shrink s p) eq_refl Hj (send_channels s _ (proj1 Hj) (proj1 Hs)) q n) by (auto; lia).
  now replace (n <? s) with true by (symmetry; now apply Nat.ltb_lt).
Qed.
Lemma last_cons {A} (x : A) l d : last (x :: l) d = last l x.
Proof. revert x. induction l as [|y l IH]; intros x; [reflexivity|]. cbn [last] in *. destruct l; [reflexivity|]. apply IH. Qed.

Lemma down_size ports : forall s, 0 < s -> 0 < fold_left shrink ports s <= s.
Proof.
  induction ports as [|p r IH]; intros s Hs; [cbn; lia|]. cbn [fold_left]. destruct (shrink_bounds s p Hs) as [A _].
  specialize (IH (shrink s p) ltac:(lia)). lia.
Qed.
Lemma down_row N ports : forall s prev, 0 < s <= N -> by_row N s prev ->
  by_row N (fold_left shrink ports s) (last (down_fam N s s ports prev) prev).
Proof.
  induction ports as [|p r IH]; intros s prev Hs H; [exact H|]. cbn [fold_left down_fam]. rewrite !last_cons.
  destruct (shrink_bounds s p (proj1 Hs)) as [Hj _]. apply IH; [lia|].
  intros q n Hq Hn. cbn [cr_add lines frac]. apply (send_row N s p prev Hs H q n); auto. lia.
Qed.
Lemma down_matched N ports : forall s prev, 0 < s <= N -> by_row N s prev -> Forall (well_matched N) (down_fam N s s ports prev).
Proof.
  induction ports as [|p r IH]; intros s prev Hs H; [constructor|]. cbn [down_fam].
  destruct (shrink_bounds s p (proj1 Hs)) as [Hj _].
  assert (C := send_channels s (shrink s p) (proj1 Hj) (proj1 Hs)).
  constructor; [|constructor].
  - apply (send_matched N s p (proj1 Hs) (proj2 Hs) prev H (shrink s p) ((s - 1) / shrink s p)); auto.
  - apply (add_matched N s p (proj1 Hs) (proj2 Hs) prev H (shrink s p) ((s - 1) / shrink s p)); auto.
  - apply IH; [lia|]. intros q n Hq Hn. cbn [cr_add lines frac]. apply (send_row N s p prev Hs H q n); auto. lia.
Qed.

Lemma first_row N : by_row N N (cr_first N).
Proof. intros q n Hq Hn. cbn [cr_first lines frac]. f_equal. lia. Qed.

Section Scatter.
  Context {V : Type} (op : V -> V -> V).
  Hypothesis op_assoc : forall a b c, op a (op b c) = op (op a b) c.
  Hypothesis op_comm : forall a b, op a b = op b a.
  Context (N : nat) (X : nat -> nat -> V) (HN : 0 < N).
  Lemma down_all ports : forall s prev s0 sn R, 0 < s <= N -> by_row N s prev -> gathered op N X R s s0 ->
    chain op N prev (down_fam N s s ports prev) s0 sn -> exists R', gathered op N X R' (fold_left shrink ports s) sn.
  Proof.
    induction ports as [|p r IH]; intros s prev s0 sn R Hs Hp G C.
    - exists R. cbn [down_fam chain] in C. destruct G as [A B]. split; auto. intros q n Hq Hn. rewrite C by auto. now apply B.
    - cbn [down_fam] in C.
      match type of C with chain _ _ _ (?x :: ?y :: ?l) _ _ => change (x :: y :: l) with ([x; y] ++ l) in C end.
      apply chain_app in C. destruct C as (sm & C1 & C2). destruct (shrink_bounds s p (proj1 Hs)) as [Hj _].
      refine (IH (shrink s p) _ sm sn _ _ _ (down_step op op_assoc op_comm N X s p prev s0 sm R Hs Hp G C1) C2); [lia|].
      intros q n Hq Hn. cbn [cr_add lines frac]. apply (send_row N s p prev Hs Hp q n); auto. lia.
  Qed.

  Lemma first_gathered (s0 : nat -> nat -> V) : (forall t, t < N -> placed (cr_first N t) (X t) (s0 t)) -> gathered op N X (fun L => L) N s0.
  Proof.
    intros H. split; auto. intros q n Hq Hn.
    rewrite (H q Hq n ((q + n) mod N)) by (auto; unfold input_line; cbn [cr_first lines recvfrom existsb]; cbn; do 2 f_equal; lia).
    unfold partial. rewrite (filter_seq _ N q 1); [reflexivity|lia|]. intros x Hx. rewrite Nat.eqb_eq.
    rewrite (mod_shift_sub N (q + n) ((q + n) mod N) x) by (try lia; now rewrite Nat.mod_mod by lia).
    assert (Hy : (q + n) mod N < N) by (apply Nat.mod_upper_bound; lia).
    rewrite (back_forth N n) by lia. rewrite (Nat.add_comm q n). split; [|intros; f_equal; lia].
    intros E. apply shift_inj in E; lia.
  Qed.
End Scatter.

(* the last block *)
Lemma last_still N NL prev : forall q n e, q < N -> n < NL -> In e (sendto (lines (cr_last NL (prev q)) n)) -> fst e = (-1)%Z.
Proof. intros q n e _ _ I. cbn [cr_last lines sendto] in I. destruct (existsb _ _); [destruct I|destruct I as [<-|[]]]. reflexivity. Qed.
Lemma last_matched N NL prev : well_matched N (fun q => cr_last NL (prev q)).
Proof.
  apply still_matched; auto.
  - intros q n e Hq Hn. now apply (last_still N NL prev q n e Hq).
  - intros p n r _ _ [].
Qed.
Lemma first_matched N : well_matched N (cr_first N).
Proof.
  split.
  - intros p q Hp Hq D. rewrite sent_lines_nil, recv_lines_nil by (auto; intros; cbn [cr_first lines recvfrom existsb]; unfold is_node; cbn [fst]; now destruct p). split; auto. now exists 0.
  - intros p n Hp Hn. cbn. split; repeat constructor; cbn; lia.
Qed.

Lemma shrink_spread s p a : 0 < a -> s <= (p + 1) * a -> shrink s p <= a.
Proof.
  intros Ha H. unfold shrink. assert ((s - 1) / (p + 1) < a); [|lia]. apply Nat.div_lt_upper_bound; lia.
Qed.
Lemma spread_pos ports : 0 < spread ports.
Proof. induction ports as [|p r IH]; cbn [spread fold_right]; [lia|]. fold (spread r). apply Nat.mul_pos_pos; lia. Qed.
Lemma down_end ports : forall s, 0 < s -> s <= spread ports -> fold_left shrink ports s = 1.
Proof.
  induction ports as [|p r IH]; intros s Hs H; cbn [fold_left]; [cbn in H; lia|].
  cbn [spread fold_right] in H. fold (spread r) in H. apply IH.
  - destruct (shrink_bounds s p Hs). lia.
  - apply shrink_spread; auto using spread_pos.
Qed.

(* the schedule as a list of families *)
Lemma scatter_family N down q : cyclic_reduce N down [] q =
  at_node q (cr_first N :: down_fam N N N down (cr_first N) ++
             [fun q => cr_last (fold_left shrink down N) (last (down_fam N N N down (cr_first N)) (cr_first N) q)]).
Proof.
  unfold cyclic_reduce. cbv zeta. rewrite (down_at N down N N (cr_first N) q). rewrite last_at_node.
  unfold at_node. now rewrite map_cons, map_app.
Qed.
Lemma scatter_blocks N down q : length (cyclic_reduce N down [] q) = S (S (length (down_fam N N N down (cr_first N)))).
Proof. rewrite scatter_family. unfold at_node. rewrite map_length. cbn [length]. rewrite app_length. cbn [length]. lia. Qed.
Lemma scatter_matched N down m : 0 < N -> well_matched N (fun q => nth m (cyclic_reduce N down [] q) empty_block).
Proof.
  intros HN. apply (family_matched N _ _ _ (scatter_family N down)); [apply first_matched|].
  apply Forall_app. split; [apply down_matched; [lia|now apply first_row]|]. constructor; [|constructor]. apply last_matched.
Qed.
Lemma scatter_last N down t : 0 < N -> N <= spread down ->
  last_block (cyclic_reduce N down [] t) = cr_last 1 (last (down_fam N N N down (cr_first N)) (cr_first N) t).
Proof.
  intros HN Hd. unfold last_block. rewrite scatter_family, (down_end down N HN Hd). unfold at_node.
  rewrite map_cons, map_app, last_cons. apply last_last.
Qed.
Lemma scatter_out N down t : 0 < N -> N <= spread down -> t < N ->
  forall n, n < 1 -> output_line (last_block (cyclic_reduce N down [] t)) n = Some t.
Proof.
  intros HN Hd Ht n Hn. assert (Row := down_row N down N (cr_first N) ltac:(lia) (first_row N)).
  rewrite (down_end down N HN Hd) in Row. rewrite (scatter_last N down t HN Hd). unfold output_line. replace n with 0 by lia.
  cbn [cr_last lines sendto seq Nat.sub Nat.add existsb frac].
  assert (Er : frac (lines (last (down_fam N N N down (cr_first N)) (cr_first N) t) 0) = t).
  { rewrite Row by (auto; lia). now rewrite Nat.add_0_r, Nat.mod_small. }
  cbn. now rewrite Er.
Qed.
Lemma scatter_solve {V} (op : V -> V -> V) N down (x : nat -> nat -> V) S :
  (forall a b c, op a (op b c) = op (op a b) c) -> (forall a b, op a b = op b a) -> 0 < N -> N <= spread down ->
  (forall t, t < N -> placed (first_block (cyclic_reduce N down [] t)) (x t) (S 0 t)) ->
  loosely op N (cyclic_reduce N down []) (length (cyclic_reduce N down [] 0)) S ->
  forall t, t < N -> delivered (last_block (cyclic_reduce N down [] t)) (fun f => f = t) (fun f => total op (fun k => x k f) N)
    (S (length (cyclic_reduce N down [] 0) - 1) t).
Proof.
  intros Oa Oc HN Hd P0 L t Ht.
  assert (C := loosely_chain op N _ _ _ (scatter_family N down) (length (cyclic_reduce N down [] 0)) S).
  specialize (C ltac:(rewrite scatter_blocks, app_length; cbn [length]; lia) L).
  apply chain_app in C. destruct C as (sm & C1 & (st & s1 & A & B & C2)). cbn [chain] in C2.
  assert (E1 : fold_left shrink down N = 1) by now apply down_end.
  destruct (down_all op Oa Oc N x HN down N (cr_first N) (S 0) sm (fun L => L)) as (R & HR & G); auto; [now apply first_row| |].
  { apply first_gathered; auto. }
  assert (Row := down_row N down N (cr_first N) ltac:(lia) (first_row N)).
  rewrite E1 in *.
  assert (E : S (length (cyclic_reduce N down [] 0) - 1) t 0 = total op (fun k => x k t) N).
  { rewrite C2, B by auto. rewrite still_stage by (auto; apply last_still). rewrite reduced_nil by reflexivity.
    rewrite A by (auto; intros k Hk; reflexivity). 
    assert (Y : Some (sm t 0) = Some (total op (fun k => x k t) N)); [|now injection Y].
    rewrite G by auto. rewrite <- combine_total by auto. unfold partial. rewrite Nat.add_0_r, (Nat.mod_small t) by auto.
    f_equal. f_equal. apply filter_all. intros k _. apply Nat.eqb_eq.
    specialize (HR ((t + N - k) mod N) ltac:(apply Nat.mod_upper_bound; lia)). lia. }
  assert (EL := scatter_last N down t HN Hd). assert (EO := scatter_out N down t HN Hd Ht).
  split.
  - intros n f Hn O. rewrite EL in Hn. cbn [cr_last num_lines] in Hn. rewrite EO in O by auto. injection O as <-. split; auto.
    replace n with 0 by lia. exact E.
  - intros f ->. exists 0. rewrite EO by lia. split; auto. rewrite EL. cbn. lia.
Qed.
