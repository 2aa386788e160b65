From Verif Require Import Base WaitanyModel WaitanySpec.
Local Ltac Zify.zify_post_hook ::= idtac.
Local Open Scope Z_scope.

Lemma inside_iff b l a : insideb b l a = true <-> inside b l a.
Proof. unfold insideb, inside. rewrite andb_true_iff, Z.leb_le, Z.ltb_lt. reflexivity. Qed.
Lemma inside_not b l a : insideb b l a = false <-> ~ inside b l a.
Proof. rewrite <- inside_iff. destruct (insideb b l a); split; congruence. Qed.

(* ----- the reductions ----- *)
Lemma reduce_range_ok n : forall p1 p2 m a, apart p1 n p2 n ->
  reduce_range p1 p2 n m a = m a + if insideb p1 n a then m (p2 + (a - p1)) else 0.
Proof.
  induction n as [|n IH]; intros p1 p2 m a H; cbn [reduce_range].
  - destruct (insideb p1 0 a) eqn:E; [|lia]. apply inside_iff in E. unfold inside in E. lia.
  - assert (P : p1 <> p2) by (intros ->; apply (H p2); unfold inside; lia).
    assert (Q : forall x, p1 <= x < p1 + Z.of_nat (S n) -> ~ p2 <= x < p2 + Z.of_nat (S n)) by (intros x Hx; apply (H x Hx)).
    rewrite IH by (intros x Hx Hx'; apply (Q x); unfold inside in *; lia).
    destruct (insideb (p1 + 1) n a) eqn:E.
    + apply inside_iff in E. unfold inside in E. replace (insideb p1 (S n) a) with true by (symmetry; apply inside_iff; unfold inside; lia).
      replace (p2 + 1 + (a - (p1 + 1))) with (p2 + (a - p1)) by lia.
      unfold upd. destruct (Z.eq_dec a p1); [lia|]. destruct (Z.eq_dec (p2 + (a - p1)) p1); [|reflexivity].
      exfalso. apply (Q p1); lia.
    + apply inside_not in E. unfold upd. destruct (Z.eq_dec a p1) as [->|Ha].
      * replace (insideb p1 (S n) p1) with true by (symmetry; apply inside_iff; unfold inside; lia).
        replace (p2 + (p1 - p1)) with p2 by lia. lia.
      * replace (insideb p1 (S n) a) with false by (symmetry; apply inside_not; unfold inside in *; lia). reflexivity.
Qed.
Lemma total_app a b : total (a ++ b) = total a + total b.
Proof. induction a as [|x a IH]; cbn; [reflexivity|]. unfold total in *. lia. Qed.
Lemma total_zero {A} (f : A -> Z) l : (forall x, In x l -> f x = 0) -> total (map f l) = 0.
Proof. induction l as [|x l IH]; intros H; [reflexivity|]. cbn. fold (total (map f l)). rewrite IH, H; [reflexivity|left; reflexivity|intros; apply H; right; assumption]. Qed.
Lemma total_ext {A} (f g : A -> Z) l : (forall x, In x l -> f x = g x) -> total (map f l) = total (map g l).
Proof. intros H. f_equal. apply map_ext_in. assumption. Qed.
Lemma total_perm a b : Permutation a b -> total a = total b.
Proof. unfold total. induction 1; cbn; lia. Qed.

(* destinations apart from sources *)
Definition clean (rs : list red) : Prop := forall r r', In r rs -> In r' rs -> apart (to r) (len r) (from r') (len r').
Lemma gain1_ext (m m' : memory) a r : (forall x, inside (from r) (len r) x -> m x = m' x) -> gain1 m a r = gain1 m' a r.
Proof.
  intros H. unfold gain1. destruct (insideb (to r) (len r) a) eqn:E; [|reflexivity].
  apply inside_iff in E. apply H. unfold inside in *. lia.
Qed.
Lemma gain1_out (m : memory) a r : ~ inside (to r) (len r) a -> gain1 m a r = 0.
Proof. intros H. unfold gain1. apply inside_not in H. rewrite H. reflexivity. Qed.
Lemma reduce_list_ok rs : forall m a, clean rs -> reduce_list rs m a = m a + total (map (gain1 m a) rs).
Proof.
  unfold reduce_list. induction rs as [|r rs IH]; intros m a C; [cbn; lia|]. cbn [fold_left map].
  rewrite IH by (intros x y Hx Hy; apply C; right; assumption).
  assert (A : forall x, reduce_range (to r) (from r) (len r) m x = m x + gain1 m x r).
  { intros x. apply reduce_range_ok. apply C; left; reflexivity. }
  rewrite A. replace (total (gain1 m a r :: map (gain1 m a) rs)) with (gain1 m a r + total (map (gain1 m a) rs)) by reflexivity.
  rewrite (total_ext (gain1 (reduce_range (to r) (from r) (len r) m) a) (gain1 m a) rs); [lia|].
  intros q Hq. apply gain1_ext. intros x Hx. rewrite A, gain1_out; [lia|].
  intros Hi. apply (C r q (or_introl eq_refl) (or_intror Hq) x Hi Hx).
Qed.
Lemma zip3_self rs : zip3 (map to rs) (map from rs) (map len rs) = rs.
Proof. induction rs as [|[t f l] rs IH]; cbn; congruence. Qed.

(* adding one message to another before it is used *)
Definition zips (ts ds : list red) : list red := zip3 (map from ts) (map from ds) (map len ds).
Lemma gain_parts ts : forall ds (m m' : memory) a, map to ts = map to ds -> map len ts = map len ds -> parts_apart ts ->
  (forall r x, In r ts -> inside (from r) (len r) x -> m' x = m x + total (map (gain1 m x) (zips ts ds))) ->
  total (map (gain1 m' a) ts) = total (map (gain1 m a) ts) + total (map (gain1 m a) ds).
Proof.
  induction ts as [|r ts IH]; intros [|d ds] m m' a Et El P H; cbn in Et, El; try discriminate; [reflexivity|].
  injection Et as Et Ets. injection El as El Els. destruct P as [P1 P2].
  assert (Zs : forall q, In q (zips ts ds) -> exists r', In r' ts /\ to q = from r' /\ len q = len r').
  { clear - Els. revert ds Els. induction ts as [|y ts IH]; intros [|d ds] E q Hq; cbn in *; try contradiction; try discriminate.
    injection E as E1 E2. destruct Hq as [<-|Hq]; [exists y; cbn; auto|]. destruct (IH ds E2 q Hq) as (r' & A & B). exists r'. auto. }
  change (total (map (gain1 m' a) (r :: ts))) with (gain1 m' a r + total (map (gain1 m' a) ts)).
  change (total (map (gain1 m a) (r :: ts))) with (gain1 m a r + total (map (gain1 m a) ts)).
  change (total (map (gain1 m a) (d :: ds))) with (gain1 m a d + total (map (gain1 m a) ds)).
  change (zips (r :: ts) (d :: ds)) with ({| to := from r; from := from d; len := len d |} :: zips ts ds) in H.
  set (z := {| to := from r; from := from d; len := len d |}) in *.
  rewrite (IH ds m m' a); try assumption.
  - assert (G : gain1 m' a r = gain1 m a r + gain1 m a d); [|lia].
    unfold gain1. rewrite <- El, <- Et. destruct (insideb (to r) (len r) a) eqn:E; [|reflexivity].
    apply inside_iff in E. assert (I : inside (from r) (len r) (from r + (a - to r))) by (unfold inside in *; lia).
    rewrite (H r) by (auto; left; reflexivity). cbn [map total fold_right].
    fold (total (map (gain1 m (from r + (a - to r))) (zips ts ds))).
    rewrite (total_zero (gain1 m (from r + (a - to r))) (zips ts ds)).
    + unfold gain1, z at 1. cbn. rewrite <- El. replace (insideb (from r) (len r) (from r + (a - to r))) with true by (symmetry; apply inside_iff; assumption).
      replace (from d + (from r + (a - to r) - from r)) with (from d + (a - to r)) by lia. lia.
    + intros q Hq. destruct (Zs q Hq) as (r' & Hr' & E1 & E2). apply gain1_out. rewrite E1, E2. apply (P1 r' Hr'). assumption.
  - intros q x Hq Hx. rewrite (H q x) by (auto; right; assumption). cbn [map total fold_right].
    fold (total (map (gain1 m x) (zips ts ds))). rewrite (gain1_out m x z); [lia|]. unfold z; cbn. rewrite <- El. apply (P1 q Hq). assumption.
Qed.

Definition completed (tr : list event) : list nat := flat_map (fun e => match e with Complete i => [i] | _ => [] end) tr.
Lemma in_completed tr i : In i (completed tr) <-> In (Complete i) tr.
Proof.
  unfold completed. rewrite in_flat_map. split.
  - intros ([j|j] & H & I); [contradiction|]. destruct I as [<-|[]]. assumption.
  - intros H. exists (Complete i). split; [assumption|left; reflexivity].
Qed.
Lemma nodup_left {A} (a b : list A) : NoDup (a ++ b) -> NoDup a.
Proof. induction a as [|x a IH]; cbn; intros H; [constructor|]. inversion H; subst. constructor; [|auto]. intros I. apply H2. apply in_or_app. left. assumption. Qed.
Lemma completed_transfers l : completed (map Transfer l) = [].
Proof. induction l; [reflexivity|assumption]. Qed.
Lemma completed_completes l : completed (map Complete l) = l.
Proof. unfold completed. induction l; cbn in *; congruence. Qed.
Lemma completed_all n tr : possible n tr -> Permutation (completed tr) (seq 0 n).
Proof.
  intros [H _]. apply (perm_trans (l' := completed (map Transfer (seq 0 n) ++ map Complete (seq 0 n)))).
  - unfold completed. rewrite H. reflexivity.
  - unfold completed at 1. rewrite flat_map_app. fold (completed (map Transfer (seq 0 n))). fold (completed (map Complete (seq 0 n))).
    rewrite completed_transfers, completed_completes. reflexivity.
Qed.
Lemma possible_nodup n tr : possible n tr -> NoDup tr.
Proof.
  intros [H _]. apply (Permutation_NoDup (Permutation_sym H)).
  assert (N := seq_NoDup n 0). revert N. generalize (seq 0 n) as l. intros l N.
  assert (N2 : NoDup (map Complete l)) by (apply FinFun.Injective_map_NoDup; [intros x y E; congruence|assumption]).
  assert (D : forall l', NoDup l' -> NoDup (map Transfer l' ++ map Complete l)).
  { induction 1 as [|x l' Hx Hl IH]; cbn; [assumption|]. constructor; [|assumption].
    rewrite in_app_iff, !in_map_iff. intros [(y & E & Hy)|(y & E & Hy)]; congruence. }
  apply D. assumption.
Qed.
Lemma possible_range n tr i : possible n tr -> In (Transfer i) tr \/ In (Complete i) tr -> (i < n)%nat.
Proof.
  intros [H _] D. assert (K : forall e, In e tr -> In e (map Transfer (seq 0 n) ++ map Complete (seq 0 n))) by (intros e; apply Permutation_in; assumption).
  assert (X : In (Transfer i) (map Transfer (seq 0 n) ++ map Complete (seq 0 n)) \/ In (Complete i) (map Transfer (seq 0 n) ++ map Complete (seq 0 n))) by (destruct D; [left|right]; apply K; assumption).
  destruct X as [X|X]; rewrite in_app_iff, !in_map_iff in X; destruct X as [(y & E & Hy)|(y & E & Hy)]; try discriminate; injection E as ->; apply in_seq in Hy; lia.
Qed.

Section Proof.
  Context (reqs : list request) (payload m0 : memory) (L : layout reqs).
  Local Notation n := (length reqs).
  Local Notation rq := (req reqs).
  Context (tr : list event) (T : possible n tr).

  (* facts about a moment of the trace *)
  Lemma past_complete past i rest : tr = past ++ Complete i :: rest ->
    (i < n)%nat /\ In (Transfer i) past /\ ~ In i (completed past) /\ NoDup (completed past) /\ (forall j, In j (completed past) -> (j < n)%nat).
  Proof using T.
    clear L. intros E. assert (N := possible_nodup n tr T). split; [apply (possible_range n tr); [assumption|right; rewrite E; apply in_elt]|].
    split; [apply (proj2 T i past rest E)|]. split; [|split].
    - rewrite in_completed. rewrite E in N. apply NoDup_remove_2 in N. intros H. apply N. apply in_or_app. left. assumption.
    - assert (P := completed_all n tr T). rewrite E in P. unfold completed in *. rewrite flat_map_app in P.
      apply (nodup_left _ _ (Permutation_NoDup (Permutation_sym P) (seq_NoDup n 0))).
    - intros j Hj. apply in_completed in Hj. apply (possible_range n tr); [assumption|right; rewrite E; apply in_or_app; left; assumption].
  Qed.
  Lemma past_transfer past i rest : tr = past ++ Transfer i :: rest -> (i < n)%nat /\ ~ In (Transfer i) past /\ ~ In i (completed past) /\
     NoDup (completed past) /\ (forall j, In j (completed past) -> (j < n)%nat).
  Proof using T.
    clear L. intros E. assert (N := possible_nodup n tr T).
    assert (A : ~ In (Transfer i) past).
    { rewrite E in N. apply NoDup_remove_2 in N. intros H. apply N. apply in_or_app. left. assumption. }
    split; [apply (possible_range n tr); [assumption|left; rewrite E; apply in_elt]|]. split; [assumption|]. split; [|split].
    - rewrite in_completed. intros H. apply in_split in H. destruct H as (a & b & ->).
      rewrite <- app_assoc in E. apply A. apply in_or_app. left. apply (proj2 T i a _ E).
    - assert (P := completed_all n tr T). rewrite E in P. unfold completed in *. rewrite flat_map_app in P.
      apply (nodup_left _ _ (Permutation_NoDup (Permutation_sym P) (seq_NoDup n 0))).
    - intros j Hj. apply in_completed in Hj. apply (possible_range n tr); [assumption|right; rewrite E; apply in_or_app; left; assumption].
  Qed.

  Definition outside (a : Z) : Prop := forall j, (j < n)%nat -> is_send (rq j) = false -> ~ inside (base (rq j)) (size (rq j)) a.
  Definition sums (a : Z) (past : list nat) : Z := total (map (gain1 payload a) (flat_map (fun i => reds (rq i)) past)).
  Lemma sums_snoc a past i : sums a (past ++ [i]) = sums a past + total (map (gain1 payload a) (reds (rq i))).
  Proof using. clear. unfold sums. rewrite flat_map_app, map_app, total_app. cbn. rewrite app_nil_r. reflexivity. Qed.
  Lemma completed_snoc past e : completed (past ++ [e]) = completed past ++ match e with Complete i => [i] | _ => [] end.
  Proof using. clear. unfold completed. rewrite flat_map_app. cbn. rewrite app_nil_r. reflexivity. Qed.
  Lemma sums_all a : sums a (completed tr) = total (map (gain1 payload a) (flat_map reds reqs)).
  Proof using T.
    clear L. unfold sums. rewrite (total_perm _ (map (gain1 payload a) (flat_map (fun i => reds (rq i)) (seq 0 n)))).
    2:{ apply Permutation_map. apply Permutation_flat_map. apply completed_all. assumption. }
    f_equal. f_equal.
    replace (flat_map reds reqs) with (flat_map reds (map rq (seq 0 n))).
    - generalize (seq 0 n) as l. induction l; cbn; congruence.
    - f_equal. unfold req. apply nth_ext with (d := none) (d' := none); [rewrite map_length, seq_length; reflexivity|].
      intros k Hk. rewrite map_length, seq_length in Hk. rewrite (nth_indep _ none (rq 0)) by (rewrite map_length, seq_length; assumption).
      unfold req. rewrite (map_nth (fun i => nth i reqs none)), seq_nth by assumption. reflexivity.
  Qed.
  Lemma reds_clean i : (i < n)%nat -> clean (reds (rq i)).
  Proof using L.
    clear T. intros Hi r r' Hr Hr' a Ha Ha'. destruct (reds_received reqs L i r' Hi Hr') as [S F].
    apply (target_apart reqs L i i r Hi Hi Hr S a Ha). apply F. assumption.
  Qed.
  Lemma target_outside i r a : (i < n)%nat -> In r (reds (rq i)) -> inside (to r) (len r) a -> outside a.
  Proof using L. clear T. intros Hi Hr Ha j Hj S. apply (target_apart reqs L i j r); assumption. Qed.
  Lemma send_outside i a : (i < n)%nat -> is_send (rq i) = true -> inside (base (rq i)) (size (rq i)) a -> outside a.
  Proof using L. clear T. intros Hi Si Ha j Hj Sj Hja. apply (buffers_apart reqs L j i Hj Hi ltac:(congruence) Sj a Hja Ha). Qed.
  Lemma contents_eq (m m' : memory) r : (forall a, inside (base r) (size r) a -> m a = m' a) -> contents m r = contents m' r.
  Proof using. clear. intros H. unfold contents. apply map_ext_in. intros k Hk. apply in_seq in Hk. apply H. unfold inside. lia. Qed.

  (* buffers whose data has arrived and is not used yet *)
  Definition arrived (past : list event) (s : state) : Prop :=
    forall j a, (j < n)%nat -> is_send (rq j) = false -> In (Transfer j) past -> ~ In j (completed past) ->
      inside (base (rq j)) (size (rq j)) a -> mem s a = payload a.
  Definition log_ok (past : list event) (s : state) : Prop :=
    (forall i c, In (i, c) (sent s) -> c = contents m0 (rq i)) /\
    forall i, is_send (rq i) = true -> In (Transfer i) past -> In (i, contents m0 (rq i)) (sent s).
  Lemma gains_arrived past s i a : (i < n)%nat -> In (Transfer i) past -> ~ In i (completed past) -> arrived past s ->
    total (map (gain1 (mem s) a) (reds (rq i))) = total (map (gain1 payload a) (reds (rq i))).
  Proof using L.
    clear T. intros Hi Ht Hc A. apply total_ext. intros r Hr. apply gain1_ext. intros x Hx.
    destruct (reds_received reqs L i r Hi Hr) as [S F]. apply (A i); auto.
  Qed.
  Lemma transfer_arrived past i rest s : tr = past ++ Transfer i :: rest -> arrived past s -> arrived (past ++ [Transfer i]) (transfer reqs payload i s).
  Proof using L T.
    intros E A. destruct (past_transfer past i rest E) as (Hi & H1 & H2 & _). intros j a Hj Sj Ht Hc Ha.
    rewrite completed_snoc, app_nil_r in Hc. unfold transfer. destruct (is_send (rq i)) eqn:Si; cbn [mem set_mem].
    - apply (A j); try assumption. apply in_app_or in Ht. destruct Ht as [Ht|[Ht|[]]]; [assumption|]. congruence.
    - destruct (insideb (base (rq i)) (size (rq i)) a) eqn:I; [reflexivity|].
      apply in_app_or in Ht. destruct Ht as [Ht|[Ht|[]]]; [apply (A j); assumption|]. injection Ht as ->. apply inside_not in I. contradiction.
  Qed.
  Lemma transfer_outside i s a : (i < n)%nat -> outside a -> mem (transfer reqs payload i s) a = mem s a.
  Proof using.
    clear L T. intros Hi O. unfold transfer. destruct (is_send (rq i)) eqn:Si; [reflexivity|]. cbn [mem set_mem].
    destruct (insideb (base (rq i)) (size (rq i)) a) eqn:I; [|reflexivity]. apply inside_iff in I. exfalso. apply (O i); assumption.
  Qed.
  Lemma transfer_other i j s a : (i < n)%nat -> (j < n)%nat -> i <> j -> inside (base (rq j)) (size (rq j)) a ->
    mem (transfer reqs payload i s) a = mem s a.
  Proof using L.
    clear T. intros Hi Hj Hij Ha. unfold transfer. destruct (is_send (rq i)) eqn:Si; [reflexivity|]. cbn [mem set_mem].
    destruct (insideb (base (rq i)) (size (rq i)) a) eqn:I; [|reflexivity]. apply inside_iff in I. exfalso.
    apply (buffers_apart reqs L i j Hi Hj Hij Si a I Ha).
  Qed.
  Lemma transfer_log past i s : (is_send (rq i) = true -> forall a, inside (base (rq i)) (size (rq i)) a -> mem s a = m0 a) ->
    log_ok past s -> log_ok (past ++ [Transfer i]) (transfer reqs payload i s).
  Proof using.
    clear L T. intros H [L1 L2]. unfold transfer. destruct (is_send (rq i)) eqn:Si; cbn [sent set_mem].
    - assert (C := contents_eq (mem s) m0 (rq i) (H eq_refl)). split.
      + intros j c Hj. apply in_app_or in Hj. destruct Hj as [Hj|[Hj|[]]]; [apply L1; assumption|]. injection Hj as <- <-. assumption.
      + intros j Sj Hj. apply in_app_or in Hj. apply in_or_app. destruct Hj as [Hj|[Hj|[]]]; [left; apply L2; assumption|].
        injection Hj as <-. right. left. rewrite C. reflexivity.
    - split; [assumption|]. intros j Sj Hj. apply in_app_or in Hj. destruct Hj as [Hj|[Hj|[]]]; [apply L2; assumption|]. congruence.
  Qed.

  (* ----- destination updated at once ----- *)
  Section Direct.
    Context (SA : sends_apart reqs).
    Definition inv1 (past : list event) (s : state) : Prop :=
      (forall a, outside a -> mem s a = m0 a + sums a (completed past)) /\ arrived past s /\ log_ok past s.
    Lemma inv1_step past e rest s : tr = past ++ e :: rest -> inv1 past s -> inv1 (past ++ [e]) (step reqs payload false e s).
    Proof using L T SA.
      intros E (M & A & G). destruct e as [i|i]; cbn [step].
      - destruct (past_transfer past i rest E) as (Hi & H1 & H2 & _ & Hp). split; [|split].
        + intros a O. rewrite transfer_outside, completed_snoc, app_nil_r by assumption. apply M. assumption.
        + apply (transfer_arrived past i rest); assumption.
        + apply transfer_log; [|assumption]. intros Si a Ha. rewrite M by (apply (send_outside i); assumption).
          unfold sums. rewrite total_zero; [lia|]. intros r Hr. apply in_flat_map in Hr. destruct Hr as (j & Hj & Hr).
          apply gain1_out. intros I. apply (SA j i r (Hp j Hj) Hi Hr Si a I Ha).
      - destruct (past_complete past i rest E) as (Hi & H1 & H2 & _ & Hp).
        assert (R : forall a, reduce_waitany (tos reqs i) (froms reqs i) (lens reqs i) (mem s) a = mem s a + total (map (gain1 payload a) (reds (rq i)))).
        { intros a. unfold reduce_waitany, tos, froms, lens. rewrite zip3_self, reduce_list_ok by (apply reds_clean; assumption).
          f_equal. apply (gains_arrived past); assumption. }
        unfold complete_direct. split; [|split].
        + intros a O. cbn [mem set_mem]. rewrite R, completed_snoc, sums_snoc, M by assumption. lia.
        + intros j a Hj Sj Ht Hc Ha. cbn [mem set_mem]. rewrite R. rewrite completed_snoc in Hc.
          rewrite total_zero.
          * rewrite Z.add_0_r. apply (A j); try assumption.
            -- apply in_app_or in Ht. destruct Ht as [Ht|[Ht|[]]]; [assumption|discriminate].
            -- intros I. apply Hc. apply in_or_app. left. assumption.
          * intros r Hr. apply gain1_out. intros I. apply (target_apart reqs L i j r Hi Hj Hr Sj a I Ha).
        + destruct G as [G1 G2]. split; [exact G1|]. intros j Sj Hj. apply in_app_or in Hj. destruct Hj as [Hj|[Hj|[]]]; [apply G2; assumption|discriminate].
    Qed.
    Lemma direct_ok : summed reqs payload m0 (exec reqs payload false tr m0).
    Proof using L T SA.
      assert (G : forall rest past s, tr = past ++ rest -> inv1 past s -> inv1 tr (fold_left (fun s e => step reqs payload false e s) rest s)).
      { induction rest as [|e rest IH]; intros past s E I; cbn [fold_left]; [rewrite E, app_nil_r; assumption|].
        apply (IH (past ++ [e])); [rewrite <- app_assoc; assumption|]. apply (inv1_step past e rest); assumption. }
      destruct (G tr [] (start reqs m0) eq_refl) as (M & _ & [G1 G2]).
      - split; [intros a _; cbn; unfold sums; cbn; lia|]. split; [intros j a _ _ []|]. split; [intros i c []|intros i _ []].
      - split; [|split].
        + intros a O. unfold exec. rewrite M by exact O. rewrite sums_all. reflexivity.
        + exact G1.
        + intros i Hi Si. apply G2; [assumption|]. destruct T as [P _]. apply (Permutation_in _ (Permutation_sym P)).
          apply in_or_app. left. apply in_map. apply in_seq. lia.
    Qed.
  End Direct.

  (* ----- destination updated when all messages have left ----- *)
  Section Deferred.
    Context (ST : same_target reqs).
    Local Notation noredp := (no_red reqs).
    Definition left_to_send (past : list event) : Z :=
      Z.of_nat (length (filter noredp (seq 0 n))) - Z.of_nat (length (filter noredp (completed past))).
    Definition no_reds (past : list event) : Prop := flat_map (fun i => reds (rq i)) (completed past) = [].
    Definition inv2 (past : list event) (s : state) : Prop :=
      num_waitall s = left_to_send past /\ arrived past s /\ log_ok past s /\
      ((not_moved s = false /\ (num_waitall s <> 0 -> no_reds past) /\ forall a, outside a -> mem s a = m0 a + sums a (completed past)) \/
       (not_moved s = true /\ num_waitall s <> 0 /\ (forall a, outside a -> mem s a = m0 a) /\
        In (target_index s) (completed past) /\ reds (rq (target_index s)) <> [] /\ pointers_temp s = tos reqs (target_index s) /\
        forall a, total (map (gain1 (mem s) a) (reds (rq (target_index s)))) = sums a (completed past))).

    Lemma no_red_reds i : noredp i = true <-> reds (rq i) = [].
    Proof using. clear. unfold no_red. destruct (reds (rq i)); split; congruence. Qed.
    Lemma left_pos past i : NoDup (completed past) -> (forall j, In j (completed past) -> (j < n)%nat) -> (i < n)%nat ->
      ~ In i (completed past) -> noredp i = true -> 1 <= left_to_send past.
    Proof using.
      clear. intros N B Hi Hc Hr. unfold left_to_send.
      assert (X : (length (filter noredp (i :: completed past)) <= length (filter noredp (seq 0 n)))%nat).
      { apply NoDup_incl_length; [apply NoDup_filter; constructor; assumption|]. intros j Hj. apply filter_In in Hj. destruct Hj as [[<-|Hj] Hr'].
        - apply filter_In. split; [apply in_seq; lia|assumption].
        - apply filter_In. split; [apply in_seq; specialize (B j Hj); lia|assumption]. }
      cbn [filter] in X. rewrite Hr in X. cbn in X. lia.
    Qed.
    Lemma sums_none a past : no_reds past -> sums a (completed past) = 0.
    Proof using. clear. unfold no_reds, sums. intros ->. reflexivity. Qed.
    Lemma sends_no_red i : (i < n)%nat -> is_send (rq i) = true -> noredp i = true.
    Proof using L.
      clear T ST. intros Hi Si. apply no_red_reds. destruct (reds (rq i)) as [|r l] eqn:E; [reflexivity|].
      destruct (reds_received reqs L i r Hi ltac:(rewrite E; left; reflexivity)) as [S _]. congruence.
    Qed.
    Lemma log_complete past i s s' : sent s' = sent s -> log_ok past s -> log_ok (past ++ [Complete i]) s'.
    Proof using.
      clear. intros E [G1 G2]. split; rewrite E; [exact G1|]. intros j Sj Hj. apply in_app_or in Hj. destruct Hj as [Hj|[Hj|[]]]; [apply G2; assumption|discriminate].
    Qed.
    Lemma arrived_complete past i s s' : (forall j a, (j < n)%nat -> is_send (rq j) = false -> In (Transfer j) past -> ~ In j (completed past) -> j <> i ->
       inside (base (rq j)) (size (rq j)) a -> mem s' a = mem s a) -> arrived past s -> arrived (past ++ [Complete i]) s'.
    Proof using.
      clear. intros H A j a Hj Sj Ht Hc Ha. rewrite completed_snoc in Hc.
      assert (Ht' : In (Transfer j) past) by (apply in_app_or in Ht; destruct Ht as [Ht|[Ht|[]]]; [assumption|discriminate]).
      assert (Hc' : ~ In j (completed past)) by (intros I; apply Hc; apply in_or_app; left; assumption).
      rewrite (H j a); auto. 1:{ apply (A j); assumption. } intros ->. apply Hc. apply in_or_app. right. left. reflexivity.
    Qed.

    Lemma inv2_transfer past i rest s : tr = past ++ Transfer i :: rest -> inv2 past s -> inv2 (past ++ [Transfer i]) (transfer reqs payload i s).
    Proof using L T.
      clear ST. intros E (W & A & G & C). destruct (past_transfer past i rest E) as (Hi & H1 & H2 & N & Hp).
      assert (Fields : num_waitall (transfer reqs payload i s) = num_waitall s /\ not_moved (transfer reqs payload i s) = not_moved s /\
        target_index (transfer reqs payload i s) = target_index s /\ pointers_temp (transfer reqs payload i s) = pointers_temp s).
      { unfold transfer. destruct (is_send (rq i)); cbn; auto. }
      destruct Fields as (F1 & F2 & F3 & F4).
      assert (Cs : completed (past ++ [Transfer i]) = completed past) by (rewrite completed_snoc; apply app_nil_r).
      unfold inv2, left_to_send, no_reds. rewrite Cs, F1, F2, F3, F4. split; [assumption|]. split; [apply (transfer_arrived past i rest); assumption|].
      split.
      - apply transfer_log; [|assumption]. intros Si a Ha. assert (O := send_outside i a Hi Si Ha).
        assert (P := left_pos past i N Hp Hi H2 (sends_no_red i Hi Si)).
        destruct C as [(C1 & C2 & C3)|(C1 & C2 & C3 & _)].
        + rewrite C3, sums_none by (try assumption; apply C2; lia). lia.
        + apply C3. assumption.
      - destruct C as [(C1 & C2 & C3)|(C1 & C2 & C3 & C4 & C5 & C6 & C7)].
        + left. split; [assumption|]. split; [assumption|]. intros a O. rewrite transfer_outside by assumption. apply C3. assumption.
        + right. split; [assumption|]. split; [assumption|]. split; [intros a O; rewrite transfer_outside by assumption; apply C3; assumption|].
          split; [assumption|]. split; [assumption|]. split; [assumption|]. intros a. rewrite <- C7. apply total_ext. intros r Hr.
          apply gain1_ext. intros x Hx. destruct (reds_received reqs L _ r (Hp _ C4) Hr) as [_ F].
          apply (transfer_other i (target_index s)); auto. intros ->. contradiction.
    Qed.

    Lemma zips_from t i r : length (reds (rq t)) = length (reds (rq i)) -> In r (zips (reds (rq t)) (reds (rq i))) ->
      exists r1 r2, In r1 (reds (rq t)) /\ In r2 (reds (rq i)) /\ to r = from r1 /\ from r = from r2 /\ len r = len r2.
    Proof using.
      clear. generalize (reds (rq t)) as ts. generalize (reds (rq i)) as ds. unfold zips.
      intros ds ts. revert ds. induction ts as [|x ts IH]; intros [|y ds] E H; cbn in *; try contradiction; try discriminate.
      destruct H as [<-|H].
      - exists x, y. cbn. auto 6.
      - destruct (IH ds ltac:(lia) H) as (r1 & r2 & A & B & C). exists r1, r2. auto.
    Qed.
    Lemma zips_len t i r : map len (reds (rq t)) = map len (reds (rq i)) -> In r (zips (reds (rq t)) (reds (rq i))) ->
      exists r1, In r1 (reds (rq t)) /\ to r = from r1 /\ len r = len r1.
    Proof using.
      clear. generalize (reds (rq t)) as ts. generalize (reds (rq i)) as ds. unfold zips.
      intros ds ts. revert ds. induction ts as [|x ts IH]; intros [|y ds] E H; cbn in *; try contradiction; try discriminate.
      injection E as E1 E2. destruct H as [<-|H]; [exists x; cbn; auto|]. destruct (IH ds E2 H) as (r1' & A & B). exists r1'. auto.
    Qed.

    Lemma inv2_complete past i rest s : tr = past ++ Complete i :: rest -> inv2 past s -> inv2 (past ++ [Complete i]) (complete_deferred reqs i s).
    Proof using L T ST.
      intros E (W & A & G & C). destruct (past_complete past i rest E) as (Hi & H1 & H2 & N & Hp).
      assert (Cs : completed (past ++ [Complete i]) = completed past ++ [i]) by (rewrite completed_snoc; reflexivity).
      assert (Rt : forall t, (t < n)%nat -> forall m a, reduce_waitany (tos reqs t) (froms reqs t) (lens reqs t) m a = m a + total (map (gain1 m a) (reds (rq t)))).
      { intros t Ht m a. unfold reduce_waitany, tos, froms, lens. rewrite zip3_self, reduce_list_ok by (apply reds_clean; assumption). reflexivity. }
      (* the destination is no receive buffer *)
      assert (Zt : forall t j m a, (t < n)%nat -> (j < n)%nat -> is_send (rq j) = false -> inside (base (rq j)) (size (rq j)) a -> total (map (gain1 m a) (reds (rq t))) = 0).
      { intros t j m a Ht Hj Sj Ha. apply total_zero. intros r Hr. apply gain1_out. intros I. apply (target_apart reqs L t j r Ht Hj Hr Sj a I Ha). }
      unfold inv2, complete_deferred. destruct (noredp i) eqn:Nr.
      - (* a message has left *)
        assert (P := left_pos past i N Hp Hi H2 Nr). assert (Ri := proj1 (no_red_reds i) Nr).
        assert (W' : left_to_send (past ++ [Complete i]) = left_to_send past - 1).
        { unfold left_to_send. rewrite Cs, filter_app, app_length. cbn. rewrite Nr. cbn. lia. }
        assert (Si : forall a, sums a (completed (past ++ [Complete i])) = sums a (completed past)).
        { intros a. rewrite Cs, sums_snoc, Ri. cbn. lia. }
        assert (Ni : no_reds (past ++ [Complete i]) <-> no_reds past).
        { unfold no_reds. rewrite Cs, flat_map_app. cbn. rewrite Ri. cbn. rewrite app_nil_r. reflexivity. }
        destruct ((num_waitall s - 1 =? 0) && not_moved s) eqn:B; cbn [mem num_waitall target_index not_moved pointers_temp sent].
        + apply andb_true_iff in B. destruct B as [B1 B2]. apply Z.eqb_eq in B1.
          destruct C as [(C1 & _)|(C1 & C2 & C3 & C4 & C5 & C6 & C7)]; [congruence|]. assert (Ht := Hp _ C4).
          split; [lia|]. split; [|split].
          * apply (arrived_complete past i s); [|assumption]. intros j a Hj Sj Htj Hcj Hji Ha. cbn [mem]. rewrite C6, Rt by assumption.
            rewrite (Zt _ j); try assumption. lia.
          * apply (log_complete past i s); [reflexivity|assumption].
          * left. split; [reflexivity|]. split; [lia|]. intros a O. rewrite C6, Rt by assumption. rewrite C7, C3, Si by assumption. reflexivity.
        + split; [lia|]. split; [|split].
          * apply (arrived_complete past i s); [reflexivity|assumption].
          * apply (log_complete past i s); [reflexivity|assumption].
          * destruct C as [(C1 & C2 & C3)|(C1 & C2 & C3 & C4 & C5 & C6 & C7)].
            -- left. split; [assumption|]. split; [intros _; apply Ni; apply C2; lia|]. intros a O. rewrite Si. apply C3. assumption.
            -- right. split; [assumption|]. rewrite C1, andb_true_r in B. apply Z.eqb_neq in B. split; [assumption|]. split; [assumption|].
               split; [rewrite Cs; apply in_or_app; left; assumption|]. split; [assumption|]. split; [assumption|].
               intros a. rewrite Si. apply C7.
      - (* a message has arrived *)
        assert (Ri : reds (rq i) <> []) by (intros X; apply no_red_reds in X; congruence).
        assert (W' : left_to_send (past ++ [Complete i]) = left_to_send past).
        { unfold left_to_send. rewrite Cs, filter_app, app_length. cbn. rewrite Nr. cbn. lia. }
        assert (Ga : forall a, total (map (gain1 (mem s) a) (reds (rq i))) = total (map (gain1 payload a) (reds (rq i)))).
        { intros a. apply (gains_arrived past); assumption. }
        destruct (Z.eqb_spec (num_waitall s) 0) as [W0|W0]; cbn [negb].
        + (* nothing left to send: update at once *)
          destruct C as [(C1 & C2 & C3)|(C1 & C2 & _)]; [|contradiction]. rewrite C1. cbn [negb mem set_mem num_waitall target_index not_moved pointers_temp sent].
          split; [lia|]. split; [|split].
          * apply (arrived_complete past i s); [|assumption]. intros j a Hj Sj Htj Hcj Hji Ha. cbn [mem set_mem]. rewrite Rt by assumption.
            rewrite (Zt _ j); try assumption. lia.
          * apply (log_complete past i s); [reflexivity|assumption].
          * left. split; [assumption|]. split; [intros X; contradiction|]. intros a O. rewrite Rt, Ga, C3, Cs, sums_snoc by assumption. lia.
        + destruct C as [(C1 & C2 & C3)|(C1 & C2 & C3 & C4 & C5 & C6 & C7)].
          * (* first message: remember it *)
            rewrite C1. cbn [negb mem num_waitall target_index not_moved pointers_temp sent].
            split; [lia|]. split; [|split].
            -- apply (arrived_complete past i s); [reflexivity|assumption].
            -- apply (log_complete past i s); [reflexivity|assumption].
            -- right. split; [reflexivity|]. split; [assumption|]. split; [|split; [|split; [|split]]].
               ++ intros a O. rewrite C3, sums_none by (try assumption; apply C2; assumption). lia.
               ++ rewrite Cs. apply in_or_app. right. left. reflexivity.
               ++ assumption.
               ++ reflexivity.
               ++ intros a. rewrite Ga, Cs, sums_snoc, sums_none by (apply C2; assumption). reflexivity.
          * (* add to the message remembered *)
            rewrite C1. cbn [negb mem set_mem num_waitall target_index not_moved pointers_temp sent].
            set (t := target_index s) in *. assert (Ht := Hp _ C4).
            destruct (proj1 ST t i Ht Hi C5 Ri) as [St Sl]. assert (Pt := proj2 ST t Ht).
            assert (Hti : t <> i) by (intros ->; contradiction).
            destruct (reds (rq t)) as [|r0 l0] eqn:Et; [contradiction|]. rewrite <- Et in *.
            assert (Str : is_send (rq t) = false) by (apply (reds_received reqs L t r0 Ht); rewrite Et; left; reflexivity).
            assert (Inz : forall z x, In z (zips (reds (rq t)) (reds (rq i))) -> inside (to z) (len z) x -> inside (base (rq t)) (size (rq t)) x).
            { intros z x Hz Hx. destruct (zips_len t i z Sl Hz) as (r1 & A1 & A2 & A3). apply (reds_received reqs L t r1 Ht A1).
              rewrite <- A2, <- A3. assumption. }
            assert (R : forall a, reduce_waitany (froms reqs t) (froms reqs i) (lens reqs i) (mem s) a =
                                  mem s a + total (map (gain1 (mem s) a) (zips (reds (rq t)) (reds (rq i))))).
            { intros a. unfold reduce_waitany, froms, lens. fold (zips (reds (rq t)) (reds (rq i))). apply reduce_list_ok.
              intros z z' Hz Hz' x Hx Hx'. apply (buffers_apart reqs L t i Ht Hi Hti Str x); [apply (Inz z); assumption|].
              assert (Ln : length (reds (rq t)) = length (reds (rq i))) by (rewrite <- (map_length len), Sl, map_length; reflexivity).
              destruct (zips_from t i z' Ln Hz') as (r1 & r2 & A1 & A2 & A3 & A4 & A5).
              apply (reds_received reqs L i r2 Hi A2). rewrite <- A4, <- A5. assumption. }
            assert (Un : forall a, ~ inside (base (rq t)) (size (rq t)) a -> reduce_waitany (froms reqs t) (froms reqs i) (lens reqs i) (mem s) a = mem s a).
            { intros a Ha. rewrite R, total_zero; [lia|]. intros z Hz. apply gain1_out. intros X. apply Ha. apply (Inz z); assumption. }
            split; [lia|]. split; [|split].
            -- apply (arrived_complete past i s); [|assumption]. intros j a Hj Sj Htj Hcj Hji Ha. cbn [mem set_mem]. apply Un.
               assert (Hjt : j <> t) by (intros ->; contradiction). apply (buffers_apart reqs L j t Hj Ht Hjt Sj a Ha).
            -- apply (log_complete past i s); [reflexivity|assumption].
            -- right. split; [first [assumption|reflexivity]|]. split; [assumption|]. split; [|split; [|split; [|split]]].
               ++ intros a O. rewrite Un by (apply O; assumption). apply C3. assumption.
               ++ rewrite Cs. apply in_or_app. left. assumption.
               ++ assumption.
               ++ assumption.
               ++ intros a. rewrite Cs, sums_snoc, <- Ga, <- C7. apply (gain_parts (reds (rq t)) (reds (rq i))); try assumption.
                  intros r x _ _. apply R.
    Qed.
    Lemma deferred_ok : summed reqs payload m0 (exec reqs payload true tr m0).
    Proof using L T ST.
      assert (G : forall rest past s, tr = past ++ rest -> inv2 past s -> inv2 tr (fold_left (fun s e => step reqs payload true e s) rest s)).
      { induction rest as [|e rest IH]; intros past s E I; cbn [fold_left]; [rewrite E, app_nil_r; assumption|].
        apply (IH (past ++ [e])); [rewrite <- app_assoc; assumption|]. destruct e; cbn [step]; [apply (inv2_transfer past i rest)|apply (inv2_complete past i rest)]; assumption. }
      destruct (G tr [] (start reqs m0) eq_refl) as (W & _ & [G1 G2] & C).
      - split; [unfold left_to_send; cbn; lia|]. split; [intros j a _ _ []|]. split; [split; [intros i c []|intros i _ []]|].
        left. split; [reflexivity|]. split; [intros _; reflexivity|]. intros a _. cbn. unfold sums. cbn. lia.
      - assert (W0 : left_to_send tr = 0).
        { unfold left_to_send. assert (P := completed_all n tr T).
          assert (Q : Permutation (filter noredp (completed tr)) (filter noredp (seq 0 n))).
          { clear - P. induction P; cbn; try destruct (noredp x); try destruct (noredp y); try constructor; try assumption; try reflexivity.
            eapply perm_trans; eassumption. }
          rewrite (Permutation_length Q). lia. }
        destruct C as [(C1 & C2 & C3)|(C1 & C2 & _)]; [|rewrite W0 in W; contradiction].
        split; [|split].
        + intros a O. unfold exec. rewrite C3 by exact O. rewrite sums_all. reflexivity.
        + exact G1.
        + intros i Hi Si. apply G2; [assumption|]. destruct T as [P _]. apply (Permutation_in _ (Permutation_sym P)).
          apply in_or_app. left. apply in_map. apply in_seq. lia.
    Qed.
  End Deferred.
End Proof.
