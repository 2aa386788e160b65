(* The recursive and cyclic schedules, executed as generated code. *)
From Verif Require Import Base SchedModel SchedSpec SchedProofs RecursiveModel RecursiveSpec RecursiveArith RecursiveProofs AllreduceProofs MatchProofs
  CyclicModel CyclicSpec CyclicProofs RawModel MsgProofs PhaseProofs RawCode RawStage RawProofs RawEnd RawSpec RawWhole.
Local Ltac Zify.zify_post_hook ::= idtac.

(* ---------- the length of an execution ---------- *)
Section Steps.
  Context {V : Type} (op : V -> V -> V) (N : nat).
  Definition weight (x : @process V) : nat := 3 * length (code x) + 2 * length (sending x) + length (receiving x).
  Definition in_flight (s : @system V) (p : nat) : nat := sum (map (fun q => length (chan s p q)) (seq 0 N)).
  Definition measure (s : @system V) : nat := sum (map (fun p => weight (procs s p) + in_flight s p) (seq 0 N)).

  Lemma sum_change (f g : nat -> nat) p : forall n, p < n -> (forall k, k < n -> k <> p -> f k = g k) ->
    sum (map f (seq 0 n)) + g p = sum (map g (seq 0 n)) + f p.
  Proof.
    induction n as [|n IH]; intros Hp H; [lia|]. rewrite seq_S, !map_app, !sum_app. cbn [map sum Nat.add].
    destruct (Nat.eq_dec p n) as [->|D].
    - replace (sum (map f (seq 0 n))) with (sum (map g (seq 0 n))); [lia|]. f_equal. apply map_ext_in.
      intros k Hk. apply in_seq in Hk. symmetry. apply H; lia.
    - rewrite (H n) by lia. assert (X : p < n) by lia. specialize (IH X). 
      assert (forall k, k < n -> k <> p -> f k = g k) by (intros; apply H; lia). specialize (IH H0). lia.
  Qed.
  Lemma step_measure s t : step op N s t -> measure t < measure s.
  Proof.
    intros H. unfold measure. destruct H as [p i rest x Hp Hc He | p q l1 r l2 Hp Hq Hs Hr Hn | p q l1 r l2 v vs Hp Hq Hs Hr Hn Hv Hl].
    - assert (W : weight x < weight (procs s p)).
      { unfold weight. rewrite Hc. cbn [length]. destruct i; cbn in He; try (injection He as <-; cbn [code sending receiving]; rewrite ?app_length; cbn [length]; lia).
        destruct (sending (procs s p)), (receiving (procs s p)); try discriminate. injection He as <-. cbn. lia. }
      pose proof (sum_change (fun k => weight (procs (set_proc s p x) k) + in_flight (set_proc s p x) k)
                             (fun k => weight (procs s k) + in_flight s k) p N Hp) as X.
      assert (Y : forall k, k < N -> k <> p -> weight (procs (set_proc s p x) k) + in_flight (set_proc s p x) k = weight (procs s k) + in_flight s k).
      { intros k _ D. cbn [set_proc procs]. rewrite upd_other by auto. reflexivity. }
      specialize (X Y). cbv beta in X.
      assert (E1 : procs (set_proc s p x) p = x) by apply upd_same. rewrite E1 in X.
      assert (E2 : in_flight (set_proc s p x) p = in_flight s p) by reflexivity. rewrite E2 in X. lia.
    - set (x := Process (code (procs s p)) (mem (procs s p)) (l1 ++ l2) (receiving (procs s p))).
      set (t := set_chan (set_proc s p x) p q _).
      pose proof (sum_change (fun k => weight (procs t k) + in_flight t k)
                             (fun k => weight (procs s k) + in_flight s k) p N Hp) as X.
      assert (Y : forall k, k < N -> k <> p -> weight (procs t k) + in_flight t k = weight (procs s k) + in_flight s k).
      { intros k _ D. unfold in_flight. unfold t, set_chan, set_proc. cbn [procs chan]. now rewrite !upd_other by auto. }
      specialize (X Y). cbv beta in X.
      assert (A : weight (procs t p) + 2 = weight (procs s p)).
      { unfold t, set_chan, set_proc. cbn [procs]. rewrite upd_same. unfold weight, x. cbn [code sending receiving]. rewrite Hs, !app_length. cbn [length]. lia. }
      assert (B : in_flight t p = in_flight s p + 1).
      { unfold in_flight. 
        pose proof (sum_change (fun k => length (chan t p k)) (fun k => length (chan s p k)) q N Hq) as X2. cbv beta in X2.
        assert (Y2 : forall k, k < N -> k <> q -> length (chan t p k) = length (chan s p k)).
        { intros k _ D. unfold t, set_chan. cbn [chan]. rewrite upd_same, upd_other by auto. reflexivity. }
        specialize (X2 Y2).
        replace (length (chan t p q)) with (length (chan s p q) + 1) in X2; [lia|].
        unfold t, set_chan. cbn [chan]. rewrite !upd_same, app_length. reflexivity. }
      lia.
    - set (x := Process (code (procs s q)) (write_mem (mem (procs s q)) (place r) v) (sending (procs s q)) (l1 ++ l2)).
      set (t := set_chan (set_proc s q x) p q vs).
      assert (A : weight (procs t q) + 1 = weight (procs s q)).
      { unfold t, set_chan, set_proc. cbn [procs]. rewrite upd_same. unfold weight, x. cbn [code sending receiving]. rewrite Hs, !app_length. cbn [length]. lia. }
      assert (B : in_flight t p + 1 = in_flight s p).
      { unfold in_flight. 
        pose proof (sum_change (fun k => length (chan t p k)) (fun k => length (chan s p k)) q N Hq) as X2. cbv beta in X2.
        assert (Y2 : forall k, k < N -> k <> q -> length (chan t p k) = length (chan s p k)).
        { intros k _ D. unfold t, set_chan. cbn [chan]. rewrite upd_same, upd_other by auto. reflexivity. }
        specialize (X2 Y2). rewrite Hv in X2. cbn [length] in X2.
        replace (length (chan t p q)) with (length vs) in X2; [lia|].
        unfold t, set_chan. cbn [chan]. now rewrite !upd_same. }
      assert (SP : forall h g : nat -> nat, sum (map (fun k => h k + g k) (seq 0 N)) = sum (map h (seq 0 N)) + sum (map g (seq 0 N))).
      { intros h g. induction (seq 0 N) as [|k l IH]; cbn; lia. }
      rewrite !SP.
      pose proof (sum_change (fun k => weight (procs t k)) (fun k => weight (procs s k)) q N Hq) as X. cbv beta in X.
      pose proof (sum_change (in_flight t) (in_flight s) p N Hp) as Z.
      assert (Y : forall k, k < N -> k <> q -> weight (procs t k) = weight (procs s k)).
      { intros k _ D. unfold t, set_chan, set_proc. cbn [procs]. now rewrite upd_other by auto. }
      assert (Y2 : forall k, k < N -> k <> p -> in_flight t k = in_flight s k).
      { intros k _ D. unfold in_flight, t, set_chan. cbn [chan]. rewrite upd_other by auto. reflexivity. }
      specialize (X Y). specialize (Z Y2). lia.
  Qed.
  Lemma steps_measure n s t : steps op N s n t -> n + measure t <= measure s.
  Proof. induction 1 as [|n t u H IH S]; [lia|]. apply step_measure in S. lia. Qed.
  Lemma steps_bound prog m n t : steps op N (start prog m) n t ->
    n <= 3 * fold_right (fun p a => length (prog p) + a) 0 (seq 0 N).
  Proof.
    intros H. apply steps_measure in H.
    replace (measure (start prog m)) with (3 * fold_right (fun p a => length (prog p) + a) 0 (seq 0 N)) in H; [lia|].
    clear H. unfold measure, weight, in_flight. cbn [start procs chan code sending receiving length].
    assert (Z : forall l : list nat, sum (map (fun _ => 0) l) = 0) by (induction l; auto).
    rewrite Z. clear Z. generalize (seq 0 N). induction l as [|p l IH]; cbn [map sum fold_right]; lia.
  Qed.
End Steps.

(* ---------- one execution of a phased program ---------- *)
Section Once.
  Context {V : Type} (op : V -> V -> V) (N K : nat) (L : nat -> nat -> list instr) (prog : nat -> list instr).
  Context (OK : phases_ok N K L) (PR : forall p, p < N -> prog p = phased K L p) (m : nat -> @memory V).
  Lemma once_progress : never_stuck op N prog m.
  Proof. intros s R. eapply phased_progress; eauto. Qed.
  Lemma once_clean : leaves_nothing op N prog m.
  Proof. intros s R F. eapply phased_clean; eauto. Qed.
  Lemma once_result (result : nat -> @memory V -> Prop) :
    (forall q mm, q < N -> (forall a, mm a = exec_list op (L K q) (memat op L m K q) a) -> result q mm) -> computes op N prog m result.
  Proof. intros H s q R Hq F. apply H; auto. intros a. eapply phased_result; eauto. Qed.
End Once.
Lemma receives_only_ext {V} n (old new new' : @memory V) v : (forall a, new' a = new a) -> receives_only n old new v -> receives_only n old new' v.
Proof. intros E (A & B & C). split; [|split]; intros; rewrite E; auto. Qed.

(* ---------- layouts ---------- *)
Definition modular (lb : nat) (b : block) : Prop := forall n, frac (lines b n) = n mod lb.
Lemma modular_writes lb NL ws : modular lb (Block NL (apply_writes (fun x => blank (x mod lb)) ws)).
Proof. intros n. cbn [lines]. now rewrite frac_writes. Qed.
Lemma modular_nth lb l m n : Forall (modular lb) l -> n < num_lines (nth m l empty_block) -> frac (lines (nth m l empty_block) n) = n mod lb.
Proof.
  intros H. revert m. induction H as [|b l Hb H IH]; intros m; [destruct m; cbn; lia|].
  destruct m; cbn [nth]; auto.
Qed.
Lemma modular_rs lb ports t : forall g first, Forall (modular lb) (rs_stages lb g first ports t).
Proof. induction ports as [|p r IH]; intros; cbn [rs_stages]; constructor; auto. apply modular_writes. Qed.
Lemma modular_reduce_scatter ports t : Forall (modular (ports_product ports)) (reduce_scatter_core ports t).
Proof.
  unfold reduce_scatter_core. constructor; [apply modular_writes|]. apply Forall_app. split; [apply modular_rs|].
  constructor; [apply modular_writes|constructor].
Qed.
Lemma modular_down lb ports t : forall g first, Forall (modular lb) (fst (fst (fst (ar_down lb g first ports t)))).
Proof.
  induction ports as [|p r IH]; intros; cbn [ar_down]; [constructor|].
  destruct (p <? 0)%Z; [|constructor]. specialize (IH (g / (width p + 1)) false).
  destruct (ar_down lb (g / (width p + 1)) false r t) as [[[bs g'] f] rest]. cbn in *. constructor; auto. apply modular_writes.
Qed.
Lemma modular_middle lb M ports t : forall g first, Forall (modular lb) (fst (fst (ar_middle lb M g first ports t))).
Proof.
  induction ports as [|p r IH]; intros; cbn [ar_middle]; [constructor|].
  destruct (g <? M); [|constructor]. specialize (IH (g * (width p + 1)) false).
  destruct (ar_middle lb M (g * (width p + 1)) false r t) as [[bs g'] rest]. cbn in *. constructor; auto. apply modular_writes.
Qed.
Lemma modular_up lb ports t : forall g, Forall (modular lb) (ar_up lb g ports t).
Proof. induction ports as [|p r IH]; intros; cbn [ar_up]; constructor; auto. apply modular_writes. Qed.
Lemma modular_allreduce ports t : Forall (modular (positive_product ports)) (allreduce_core ports t).
Proof.
  unfold allreduce_core. set (lb := positive_product ports).
  pose proof (modular_down lb ports t lb true) as D. destruct (ar_down lb lb true ports t) as [[[down middle] first] rest].
  pose proof (modular_middle lb middle rest t 1 first) as M. destruct (ar_middle lb middle 1 first rest t) as [[mid gb] rest'].
  constructor; [apply modular_writes|]. apply Forall_app. split; [exact D|]. apply Forall_app. split; [exact M|].
  apply Forall_app. split; [apply modular_up|]. constructor; [apply modular_writes|constructor].
Qed.
(* allgather: line n holds fragment n *)
Definition plain (lb : nat) (b : block) : Prop := num_lines b = lb /\ forall n, frac (lines b n) = n.
Lemma plain_writes lb ws : plain lb (Block lb (apply_writes blank ws)).
Proof. split; [reflexivity|]. intros n. cbn [lines]. now rewrite frac_writes. Qed.
Lemma plain_ag lb ports t : forall g, Forall (plain lb) (ag_stages lb g ports t).
Proof. induction ports as [|p r IH]; intros; cbn [ag_stages]; constructor; auto. apply plain_writes. Qed.
Lemma plain_allgather ports t : Forall (plain (ports_product ports)) (allgather_core ports t).
Proof.
  unfold allgather_core. constructor; [apply plain_writes|]. apply Forall_app. split; [apply plain_ag|].
  constructor; [apply plain_writes|constructor].
Qed.
Lemma plain_nth lb l m n : Forall (plain lb) l -> n < num_lines (nth m l empty_block) -> n < lb /\ frac (lines (nth m l empty_block) n) = n.
Proof.
  intros H. revert m. induction H as [|b l [E Hb] H IH]; intros m; [destruct m; cbn; lia|].
  destruct m; cbn [nth]; auto. rewrite E. auto.
Qed.
(* cyclic: line n of node q holds fragment q + n *)
Definition turned (N q : nat) (b : block) : Prop := forall n, n < num_lines b -> frac (lines b n) = (q + n) mod N.
Lemma turned_cy N ports q : forall P g, Forall (turned N q) (fst (cy_stages N P g ports q)).
Proof.
  induction ports as [|p r IH]; intros; cbn [cy_stages]; [constructor|].
  specialize (IH (cy_lines N P p) (g * (p + 1))). destruct (cy_stages N (cy_lines N P p) (g * (p + 1)) r q) as [bs l].
  cbn in *. constructor; auto. intros n Hn. cbn [lines]. unfold cy_line.
  destruct (_ <? _); [reflexivity|]. now destruct (_ <=? _).
Qed.
Lemma turned_cyclic N ports q : q < N -> Forall (turned N q) (cyclic_allgather N ports q).
Proof.
  intros Hq. unfold cyclic_allgather. pose proof (turned_cy N ports q 1 1) as T.
  destruct (cy_stages N 1 1 ports q) as [bs l]. cbn in T. constructor.
  - intros n Hn. cbn in *. replace n with 0 by lia. rewrite Nat.add_0_r. symmetry. now apply Nat.mod_small.
  - apply Forall_app. split; auto. constructor; [|constructor]. intros n _. reflexivity.
Qed.
Lemma turned_nth N q l m n : Forall (turned N q) l -> n < num_lines (nth m l empty_block) -> frac (lines (nth m l empty_block) n) = (q + n) mod N.
Proof.
  intros H. revert m. induction H as [|b l Hb H IH]; intros m; [destruct m; cbn; lia|].
  destruct m; cbn [nth]; auto.
Qed.

(* the input lines of the reductions come first *)
Lemma rs_first_in lb n f : input_line (rs_first lb) n = Some f -> n < lb.
Proof.
  intros H. destruct (le_lt_dec lb n) as [Le|]; auto. exfalso. unfold input_line, rs_first in H. cbn [lines] in H.
  rewrite recvfrom_none in H; [discriminate|]. intros v Hv. apply in_map_iff in Hv. destruct Hv as (l & [= -> _] & Hl). apply in_seq in Hl. lia.
Qed.
Lemma off_modular mcounts N n : n <= N -> off (mmsizes mcounts N) (fun k => k mod N) n = moffset mcounts n.
Proof.
  intros H. rewrite moffset_off. apply off_cong. intros k Hk. unfold mmsizes. now rewrite !Nat.mod_small by (rewrite ?Nat.mod_small; lia).
Qed.
Lemma rs_first_room mcounts N n f : input_line (rs_first N) n = Some f -> off (mmsizes mcounts N) (fun k => k mod N) (S n) <= moffset mcounts N.
Proof.
  intros H. apply rs_first_in in H. rewrite off_modular by lia. rewrite moffset_S. now apply moffset_lt.
Qed.

Lemma split_sum count N : 0 < N -> moffset (split_count count N) N = count.
Proof.
  intros HN.
  assert (G : forall i, moffset (split_count count N) i = i * (count / N) + Nat.min i (count mod N)).
  { induction i as [|i IH]; [cbn; lia|]. rewrite moffset_S, IH. unfold split_count.
    destruct (Nat.ltb_spec i (count mod N)); cbn [Nat.mul]; lia. }
  rewrite G. pose proof (Nat.mod_upper_bound count N ltac:(lia)). rewrite Nat.min_r by lia.
  symmetry. apply Nat.div_mod. lia.
Qed.

(* ---------- allreduce ---------- *)
Section Allreduce.
  Context {V : Type} (op : V -> V -> V).
  Context (op_assoc : forall a b c, op a (op b c) = op (op a b) c) (op_comm : forall a b, op a b = op b a).
  Context (down mid up : list Z) (B : balanced down mid up) (count : nat).
  Local Notation ports := (down ++ mid ++ up).
  Local Notation N := (node_count (mid ++ up)).
  Local Notation alg := (generate_recursive false ports).
  Local Notation nb := (length ports + 2).
  Local Notation mc := (split_count count N).
  Local Notation size_of := (mmsizes mc N).
  Local Notation LL := (L N alg nb size_of (fun q => copyin_reduce N mc (nth 0 (alg q) empty_block))
     (fun q => copyout_all mc (nth (nb - 1) (alg q) empty_block) (moffset mc N))).

  Lemma ar_N : 0 < N /\ positive_product ports = N.
  Proof.
    split; [apply product_pos|]. destruct B as (Hd & Hm & Hu & _). rewrite positive_product_eq; auto. now apply Forall_app.
  Qed.
  Lemma ar_lay m q n : m < nb -> q < N -> n < num_lines (nth m (alg q) empty_block) -> frac (lines (nth m (alg q) empty_block) n) = n mod N.
  Proof.
    intros _ _. apply modular_nth. rewrite generate_allreduce by auto. destruct ar_N as [_ <-]. apply modular_allreduce.
  Qed.
  Lemma ar_first q : nth 0 (alg q) empty_block = rs_first N.
  Proof.
    rewrite generate_allreduce by auto. unfold allreduce_core. destruct ar_N as [_ E]. rewrite E.
    destruct (ar_down _ _ _ _ _) as [[[? ?] ?] ?]. destruct (ar_middle _ _ _ _ _ _) as [[? ?] ?]. reflexivity.
  Qed.
  Lemma ar_ok : phases_ok N (nb - 1) LL.
  Proof.
    destruct ar_N as [Np _]. apply (whole_ok N alg nb mc); try lia.
    - intros m _. now apply generated_allreduce_matched.
    - intros; apply copyin_quiet.
    - intros; apply copyout_quiet.
  Qed.
  Lemma ar_program p : p < N -> allreduce_program (alg p) count N p = phased (nb - 1) LL p.
  Proof.
    intros Hp. destruct ar_N as [Np _]. rewrite <- (whole_phased N alg nb mc); auto; try lia.
    - unfold allreduce_program, program, between. rewrite hd_first, (last_nth N alg nb); auto.
      + rewrite split_sum by lia. reflexivity.
      + now apply generated_allreduce_same_length.
    - now apply generated_allreduce_same_length.
    - intros m _. now apply generated_allreduce_matched.
    - intros; apply copyin_quiet.
    - intros; apply copyout_quiet.
  Qed.
  Lemma ar_lock m q : q < N ->
    receives_only count (m q) (exec_list op (LL (nb - 1) q) (memat op LL m (nb - 1) q)) (fun j => total op (fun p => m p (Sendbuf, j)) N).
  Proof.
    intros Hq. destruct ar_N as [Np _]. rewrite <- (split_sum count N) at 1 by lia.
    apply (allreduce_lock op N alg nb mc (fun _ n => n mod N)); auto; try lia.
    - now apply generated_allreduce_same_length.
    - intros k _. now apply generated_allreduce_matched.
    - apply ar_lay.
    - intros q' n f Hq' Hn I. cbv beta in I. rewrite ar_first in I. now apply rs_first_room with f.
    - intros x st P t Ht. rewrite <- (generated_allreduce_same_length down mid up B N t Ht).
      apply generated_allreduce; auto.
  Qed.
End Allreduce.

(* ---------- reduce_scatter ---------- *)
Section ReduceScatter.
  Context {V : Type} (op : V -> V -> V).
  Context (op_assoc : forall a b c, op a (op b c) = op (op a b) c) (op_comm : forall a b, op a b = op b a).
  Context (ports : list Z) (NZ : nonzero ports) (LN : (last ports 0 < 0)%Z) (mc : nat -> nat).
  Local Notation N := (node_count ports).
  Local Notation alg := (generate_recursive false ports).
  Local Notation nb := (length ports + 2).
  Local Notation size_of := (mmsizes mc N).
  Local Notation LL := (L N alg nb size_of (fun q => copyin_reduce N mc (nth 0 (alg q) empty_block))
     (fun q => copyout_own mc (nth (nb - 1) (alg q) empty_block) (mc q))).

  Lemma rs_N : 0 < N /\ ports_product ports = N.
  Proof. split; [apply product_pos|]. apply ports_product_eq. Qed.
  Lemma rs_len M : same_length M alg nb.
  Proof. now apply generated_same_length. Qed.
  Lemma rs_match m : well_matched N (fun q => nth m (alg q) empty_block).
  Proof. now apply generated_reduce_scatter_matched. Qed.
  Lemma rs_lay m q n : m < nb -> q < N -> n < num_lines (nth m (alg q) empty_block) -> frac (lines (nth m (alg q) empty_block) n) = n mod N.
  Proof.
    intros _ _. apply modular_nth. rewrite generate_reduce_scatter by auto. destruct rs_N as [_ <-]. apply modular_reduce_scatter.
  Qed.
  Lemma rs_head q : nth 0 (alg q) empty_block = rs_first N.
  Proof. rewrite generate_reduce_scatter by auto. unfold reduce_scatter_core. destruct rs_N as [_ ->]. reflexivity. Qed.
  Lemma rs_tail q : nth (nb - 1) (alg q) empty_block = rs_last N q.
  Proof.
    rewrite generate_reduce_scatter by auto. unfold reduce_scatter_core. destruct rs_N as [_ ->].
    replace (nb - 1) with (S (length ports)) by lia. cbn [nth]. rewrite app_nth2; rewrite rs_stages_length; [|lia].
    now rewrite Nat.sub_diag.
  Qed.
  Lemma rs_ok : phases_ok N (nb - 1) LL.
  Proof.
    destruct rs_N as [Np _]. apply (whole_ok N alg nb mc); try lia.
    - intros m _. apply rs_match.
    - intros; apply copyin_quiet.
    - intros; apply own_quiet.
  Qed.
  Lemma rs_program p : p < N -> reduce_scatter_program (alg p) mc N p = phased (nb - 1) LL p.
  Proof.
    intros Hp. destruct rs_N as [Np _]. rewrite <- (whole_phased N alg nb mc); auto; try lia.
    - unfold reduce_scatter_program, program, between. rewrite hd_first, (last_nth N alg nb); auto. apply rs_len.
    - apply rs_len.
    - intros m _. apply rs_match.
    - intros; apply copyin_quiet.
    - intros; apply own_quiet.
  Qed.
  Lemma rs_lock m q : q < N ->
    receives_only (mc q) (m q) (exec_list op (LL (nb - 1) q) (memat op LL m (nb - 1) q))
      (fun j => total op (fun p => m p (Sendbuf, moffset mc q + j)) N).
  Proof.
    intros Hq. destruct rs_N as [Np _].
    apply (reduce_scatter_lock op N alg nb mc (fun _ n => n mod N)) with (out_n := fun q => N + q); auto; try lia.
    - apply rs_len.
    - intros k _. apply rs_match.
    - apply rs_lay.
    - intros q' n f Hq' Hn I. cbv beta in I. rewrite rs_head in I. now apply rs_first_room with f.
    - intros q' Hq'. cbv beta. rewrite rs_tail. split; [cbn [rs_last num_lines]; lia|]. split.
      + rewrite rs_last_output by auto. now rewrite Nat.eqb_refl.
      + intros n Hn. unfold rs_last. cbn [lines]. rewrite sendto_none; [reflexivity|].
        intros v Hv. apply in_flat_map in Hv. destruct Hv as (l & Hl & Hv). apply in_seq in Hl.
        destruct (Nat.eqb_spec (l - 2 * N / 2) q') as [E|]; [|destruct Hv]. destruct Hv as [[= -> _]|[]].
        replace (2 * N / 2) with N in E by (rewrite Nat.mul_comm; symmetry; apply Nat.div_mul; lia). lia.
    - intros x st P t Ht. rewrite <- (rs_len N t Ht). apply generated_reduce_scatter; auto.
  Qed.
End ReduceScatter.

(* ---------- allgather ---------- *)
Section Allgather.
  Context {V : Type} (op : V -> V -> V) (ports : list Z) (mc : nat -> nat).
  Local Notation N := (node_count ports).
  Local Notation alg := (generate_recursive true ports).
  Local Notation nb := (length ports + 2).
  Local Notation size_of := (mmsizes mc N).
  Local Notation LL := (L N alg nb size_of (fun q => copyin_gather mc (nth 0 (alg q) empty_block) (mc q))
     (fun q => copyout_all mc (nth (nb - 1) (alg q) empty_block) (moffset mc N))).

  Lemma ag_N : 0 < N /\ ports_product ports = N.
  Proof. split; [apply product_pos|]. apply ports_product_eq. Qed.
  Lemma ag_len M : same_length M alg nb.
  Proof. now apply generated_same_length. Qed.
  Lemma ag_match m : well_matched N (fun q => nth m (alg q) empty_block).
  Proof. now apply generated_allgather_matched. Qed.
  Lemma ag_lay m q n : m < nb -> q < N -> n < num_lines (nth m (alg q) empty_block) -> frac (lines (nth m (alg q) empty_block) n) = n mod N.
  Proof.
    intros _ _ Hn. destruct ag_N as [_ E]. pose proof (plain_allgather ports q) as P. rewrite E in P.
    destruct (plain_nth N (alg q) m n P Hn) as [Hl ->]. symmetry. now apply Nat.mod_small.
  Qed.
  Lemma ag_head q : nth 0 (alg q) empty_block = ag_first N q.
  Proof. unfold generate_recursive, allgather_core. destruct ag_N as [_ ->]. reflexivity. Qed.
  Lemma ag_ok : phases_ok N (nb - 1) LL.
  Proof.
    destruct ag_N as [Np _]. apply (whole_ok N alg nb mc); try lia.
    - intros m _. apply ag_match.
    - intros; apply gather_quiet.
    - intros; apply copyout_quiet.
  Qed.
  Lemma ag_program p : p < N -> allgather_program (alg p) mc N p = phased (nb - 1) LL p.
  Proof.
    intros Hp. destruct ag_N as [Np _]. rewrite <- (whole_phased N alg nb mc); auto; try lia.
    - unfold allgather_program, program, between. rewrite hd_first, (last_nth N alg nb); auto. apply ag_len.
    - apply ag_len.
    - intros m _. apply ag_match.
    - intros; apply gather_quiet.
    - intros; apply copyout_quiet.
  Qed.
  Lemma ag_lock m q : q < N ->
    receives_only (moffset mc N) (m q) (exec_list op (LL (nb - 1) q) (memat op LL m (nb - 1) q))
      (fun j => exec_list op (LL (nb - 1) q) (memat op LL m (nb - 1) q) (Recvbuf, j)) /\
    forall f i, f < N -> i < mc f -> exec_list op (LL (nb - 1) q) (memat op LL m (nb - 1) q) (Recvbuf, moffset mc f + i) = m f (Sendbuf, i).
  Proof.
    intros Hq. destruct ag_N as [Np _].
    apply (allgather_lock op N alg nb mc (fun _ n => n mod N)) with (in_n := fun q => q); auto; try lia.
    - apply ag_len.
    - intros k _. apply ag_match.
    - apply ag_lay.
    - intros q' Hq'. cbv beta. rewrite ag_head. split; [exact Hq'|]. split; [now apply ag_first_input|].
      intros n _ D. destruct (input_line (ag_first N q') n) eqn:E; auto. apply ag_first_input in E; auto. lia.
    - intros x st P t Ht. rewrite <- (ag_len N t Ht). apply generated_allgather; auto.
  Qed.
End Allgather.

Section Cyclic.
  Context {V : Type} (op : V -> V -> V) (N : nat) (ports : list nat) (MIN : minimal N ports) (mc : nat -> nat).
  Local Notation alg := (cyclic_allgather N ports).
  Local Notation nb := (length ports + 2).
  Local Notation size_of := (mmsizes mc N).
  Local Notation LL := (L N alg nb size_of (fun q => copyin_gather mc (nth 0 (alg q) empty_block) (mc q))
     (fun q => copyout_all mc (nth (nb - 1) (alg q) empty_block) (moffset mc N))).

  Lemma cy_len : same_length N alg nb.
  Proof. intros t _. apply cyclic_length. Qed.
  Lemma cy_match m : well_matched N (fun q => nth m (alg q) empty_block).
  Proof. now apply cyclic_matched. Qed.
  Lemma cy_lay m q n : m < nb -> q < N -> n < num_lines (nth m (alg q) empty_block) -> frac (lines (nth m (alg q) empty_block) n) = (q + n) mod N.
  Proof. intros _ Hq. apply turned_nth. now apply turned_cyclic. Qed.
  Lemma cy_head q : nth 0 (alg q) empty_block = cy_first q.
  Proof. unfold cyclic_allgather. destruct (cy_stages N 1 1 ports q). reflexivity. Qed.
  Lemma cy_ok : phases_ok N (nb - 1) LL.
  Proof.
    apply (whole_ok N alg nb mc); try lia.
    - intros m _. apply cy_match.
    - intros; apply gather_quiet.
    - intros; apply copyout_quiet.
  Qed.
  Lemma cy_program p : p < N -> allgather_program (alg p) mc N p = phased (nb - 1) LL p.
  Proof.
    intros Hp. rewrite <- (whole_phased N alg nb mc); auto; try lia.
    - unfold allgather_program, program, between. rewrite hd_first, (last_nth N alg nb); auto. apply cy_len.
    - apply cy_len.
    - intros m _. apply cy_match.
    - intros; apply gather_quiet.
    - intros; apply copyout_quiet.
  Qed.
  Lemma cy_lock m q : q < N ->
    receives_only (moffset mc N) (m q) (exec_list op (LL (nb - 1) q) (memat op LL m (nb - 1) q))
      (fun j => exec_list op (LL (nb - 1) q) (memat op LL m (nb - 1) q) (Recvbuf, j)) /\
    forall f i, f < N -> i < mc f -> exec_list op (LL (nb - 1) q) (memat op LL m (nb - 1) q) (Recvbuf, moffset mc f + i) = m f (Sendbuf, i).
  Proof.
    intros Hq.
    apply (allgather_lock op N alg nb mc (fun q n => (q + n) mod N)) with (in_n := fun _ => 0); auto; try lia.
    - apply cy_len.
    - intros k _. apply cy_match.
    - apply cy_lay.
    - intros q' Hq'. cbv beta. rewrite cy_head. split; [cbn; lia|]. split; [reflexivity|].
      cbn [cy_first num_lines]. intros n Hn D. lia.
    - intros x st P t Ht. rewrite <- (cy_len t Ht). now apply cyclic_correct.
  Qed.
End Cyclic.
