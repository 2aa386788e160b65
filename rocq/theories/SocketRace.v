(* The executions of code with node barriers. *)
From Verif Require Import Base SchedModel SchedSpec RawModel FinalModel SocketModel SocketSpec SocketProofs.
Local Ltac Zify.zify_post_hook ::= idtac.
Local Open Scope nat_scope.

Lemma phases_cons ls : exists x y, phases ls = x :: y.
Proof. destruct ls as [|[i|] r]; cbn; try (repeat eexists; reflexivity). destruct (phases r); repeat eexists; reflexivity. Qed.
Lemma phases_length ls : length (phases ls) = node_barriers ls + 1.
Proof.
  induction ls as [|[i|] r IH]; [reflexivity| |].
  - cbn [phases]. destruct (phases_cons r) as (x & y & E). rewrite E in IH |- *. exact IH.
  - cbn [phases length]. rewrite IH. reflexivity.
Qed.
Lemma phase_own i r b : phase b (Own i :: r) = match b with O => i :: phase 0 r | _ => phase b r end.
Proof. unfold phase. cbn [phases]. destruct (phases_cons r) as (x & y & ->). destruct b; reflexivity. Qed.
Lemma phase_barrier r b : phase b (NodeBarrier :: r) = match b with O => [] | Datatypes.S c => phase c r end.
Proof. destruct b; reflexivity. Qed.

Section Race.
  Context {V : Type} (op : V -> V -> V) (S : nat) (HS : 0 < S).

  Lemma owner_below p k : p < S -> owner S p k < S.
  Proof.
    intros H. unfold owner. rewrite Nat.div_small by assumption. cbn. apply Nat.mod_upper_bound. lia.
  Qed.

  (* A line gives the same if what it reads is the same. *)
  Lemma exec_line_same i p (m1 m2 : nat -> @memory V) : (forall a, m1 p a = m2 p a) ->
    (forall q a, q <> p -> reads_at S p i q a -> m1 q a = m2 q a) ->
    forall a, exec_line op S i p m1 p a = exec_line op S i p m2 p a.
  Proof.
    intros E R a. unfold exec_line. rewrite !upd_same.
    assert (O : forall l, (forall k, fst l <> Shm (Datatypes.S k)) -> view S m1 p l = view S m2 p l).
    { intros [[| |[|k]] o] H; unfold view; cbn [fst snd]; try apply E. exfalso. exact (H k eq_refl). }
    assert (G : forall d s n, source i = Some (s, n) -> inside d n a = true ->
              view S m1 p (at_off s (snd a - snd d)) = view S m2 p (at_off s (snd a - snd d))).
    { intros d s n Es I. destruct s as [sb o]. destruct sb as [| |[|k]]; try (apply O; intros k; cbn; discriminate).
      unfold view, at_off. cbn [fst snd]. destruct (Nat.eq_dec (owner S p (Datatypes.S k)) p) as [Q|Q]; [rewrite Q; apply E|].
      apply R; [exact Q|]. unfold reads_at. rewrite Es. split; [reflexivity|].
      unfold inside in *. cbn [fst snd buffer_eqb] in *. apply andb_true_iff in I. destruct I as [I J]. apply andb_true_iff in I. destruct I as [_ I].
      apply Nat.leb_le in I. apply Nat.ltb_lt in J. cbn.
      apply andb_true_iff. split; [apply Nat.leb_le|apply Nat.ltb_lt]; lia. }
    destruct (fst a) as [| |[|k]] eqn:F; try (apply E).
    all: assert (A : view S m1 p a = view S m2 p a) by (apply O; intros k; rewrite F; discriminate).
    all: destruct i; cbn [exec_local]; try exact A.
    all: match goal with |- context [inside ?d ?n ?a] => destruct (inside d n a) eqn:I; [|exact A] end.
    all: rewrite ?A; first [eapply G; [reflexivity|exact I] | f_equal; eapply G; [reflexivity|exact I]].
  Qed.

  Lemma exec_line_untouched i p (m : nat -> @memory V) a : ~ writes_at i a -> exec_line op S i p m p a = m p a.
  Proof.
    intros W. unfold exec_line. rewrite upd_same.
    assert (A : (forall k, fst a <> Shm (Datatypes.S k)) -> view S m p a = m p a).
    { intros H. unfold view. destruct (fst a) as [| |[|k]] eqn:F; try reflexivity. exfalso. exact (H k eq_refl). }
    destruct (fst a) as [| |[|k]] eqn:F; try reflexivity.
    all: specialize (A ltac:(intros; discriminate)).
    all: destruct i; cbn [exec_local]; try exact A.
    all: unfold writes_at in W; cbn [target] in W; match goal with |- context [inside ?d ?n ?a] => destruct (inside d n a) end; [exfalso; apply W; reflexivity|exact A].
  Qed.

  Lemma lonely_app M p x y (mm : @memory V) : lonely op S M p (x ++ y) mm = lonely op S M p y (lonely op S M p x mm).
  Proof. unfold lonely. apply fold_left_app. Qed.
  Lemma lonely_untouched M p l : forall (mm : @memory V) a, (forall i, In i l -> ~ writes_at i a) -> lonely op S M p l mm a = mm a.
  Proof.
    induction l as [|i l IH]; intros mm a H; [reflexivity|]. unfold lonely in *. cbn [fold_left].
    rewrite IH by (intros; apply H; right; assumption). rewrite exec_line_untouched by (apply H; left; reflexivity).
    rewrite upd_same. reflexivity.
  Qed.

  Context (prog : nat -> list sline) (m : nat -> @memory V).
  Notation M := (before_phase op S prog m).

  Record stands (s : @snode V) (p : nat) (done : list instr) : Prop := {
    st_now : phase (passed s p) (prog p) = done ++ phase 0 (scode s p);
    st_next : forall c, phase (passed s p + 1 + c) (prog p) = phase (1 + c) (scode s p);
    st_left : passed s p + node_barriers (scode s p) = node_barriers (prog p);
    st_mem : forall a, smem s p a = lonely op S (M (passed s p)) p done (M (passed s p) p) a }.
  Definition close (s : @snode V) : Prop :=
    forall p q, p < S -> q < S -> passed s q <= passed s p + 1 /\
      (passed s q = passed s p + 1 -> exists r, scode s p = NodeBarrier :: r).

  Lemma sstep_cases s p t : sstep op S s p = Some t ->
    (exists i r, scode s p = Own i :: r /\ is_message i = false /\ t = Snode (exec_line op S i p (smem s)) (upd Nat.eq_dec (scode s) p r) (passed s)) \/
    (exists r, scode s p = NodeBarrier :: r /\ (forall q, q < S -> arrived s p q = true) /\
       t = Snode (smem s) (upd Nat.eq_dec (scode s) p r) (upd Nat.eq_dec (passed s) p (passed s p + 1))).
  Proof.
    unfold sstep. intros H. destruct (scode s p) as [|[i|] r]; [discriminate| |].
    - left. exists i, r. split; [reflexivity|]. destruct i; try discriminate; injection H as <-; split; reflexivity.
    - right. exists r. split; [reflexivity|]. destruct (forallb (arrived s p) (seq 0 S)) eqn:E; [|discriminate].
      injection H as <-. split; [|reflexivity]. intros q Hq. rewrite forallb_forall in E. apply E. apply in_seq. lia.
  Qed.

  Lemma close_step s p t : p < S -> close s -> sstep op S s p = Some t -> close t.
  Proof.
    intros Hp C H. apply sstep_cases in H. destruct H as [(i & r & E & _ & ->)|(r & E & A & ->)]; intros a b Ha Hb; cbn [passed scode].
    - destruct (C a b Ha Hb) as [C1 C2]. split; [exact C1|]. intros X. specialize (C2 X).
      unfold upd. destruct (Nat.eq_dec a p) as [->|N]; [|exact C2]. destruct C2 as (r' & C2). rewrite E in C2. discriminate.
    - destruct (C a b Ha Hb) as [C1 C2]. assert (D := A b Hb). assert (D' := A a Ha). unfold arrived in D, D'.
      apply orb_true_iff in D, D'. unfold upd.
      assert (Pa : passed s p < passed s a \/ passed s a = passed s p /\ exists r, scode s a = NodeBarrier :: r).
      { destruct D' as [D'|D']; [left; apply Nat.ltb_lt; exact D'|right]. apply andb_true_iff in D'. destruct D' as [D1 D2].
        apply Nat.eqb_eq in D1. split; [exact D1|]. destruct (scode s a) as [|[|] ?]; try discriminate. eexists; reflexivity. }
      assert (Pb : passed s p <= passed s b).
      { destruct D as [D|D]; [apply Nat.ltb_lt in D; lia|]. apply andb_true_iff in D. destruct D as [D _]. apply Nat.eqb_eq in D. lia. }
      destruct (C p b Hp Hb) as [C3 _]. destruct (C p a Hp Ha) as [C4 _].
      destruct (Nat.eq_dec a p) as [->|Na]; destruct (Nat.eq_dec b p) as [->|Nb]; split; try lia.
      + intros X. destruct Pa as [Pa|[_ Pa]]; [lia|exact Pa].
      + exact C2.
  Qed.

  Lemma stands_other s p t q done : q <> p -> sstep op S s p = Some t -> stands s q done -> stands t q done.
  Proof.
    intros N H T. apply sstep_cases in H.
    destruct H as [(i & r & E & _ & ->)|(r & E & A & ->)]; destruct T as [T1 T2 T3 T4]; constructor; cbn [passed scode smem];
      rewrite ?upd_other by assumption; try assumption.
    intros a. unfold exec_line. rewrite upd_other by assumption. apply T4.
  Qed.

  Lemma memory_before s p q done (RF : race_free S prog) i a : close s -> p < S -> q < S -> q <> p ->
    stands s q done -> In i (phase (passed s p) (prog p)) -> (forall r, scode s p <> NodeBarrier :: r) ->
    reads_at S p i q a -> smem s q a = M (passed s p) q a.
  Proof.
    intros C Hp Hq N T Hi NB R. destruct (C p q Hp Hq) as [C1 C2]. destruct (C q p Hq Hp) as [C3 C4].
    destruct T as [T1 T2 T3 T4].
    assert (K : passed s q = passed s p + 1 \/ passed s q = passed s p \/ passed s p = passed s q + 1) by lia.
    destruct K as [K|[K|K]].
    - exfalso. destruct (C2 K) as (r & X). exact (NB r X).
    - rewrite T4, K. apply lonely_untouched. intros j Hj W.
      apply (RF p q (passed s p) i j a Hp Hq ltac:(auto) Hi); [|exact R|exact W].
      rewrite <- K, T1. apply in_or_app. left. exact Hj.
    - destruct (C4 K) as (r & X). rewrite K, Nat.add_1_r. cbn [before_phase].
      rewrite T4. rewrite T1, X, phase_barrier, app_nil_r. reflexivity.
  Qed.

  Lemma stands_self s p t (RF : race_free S prog) : p < S -> close s -> (forall q, q < S -> exists done, stands s q done) ->
    sstep op S s p = Some t -> exists done, stands t p done.
  Proof.
    intros Hp C T H. apply sstep_cases in H. destruct (T p Hp) as (done & [T1 T2 T3 T4]).
    destruct H as [(i & r & E & _ & ->)|(r & E & A & ->)].
    - exists (done ++ [i]). rewrite E in *. assert (Hi : In i (phase (passed s p) (prog p))).
      { rewrite T1, phase_own. apply in_or_app. right. left. reflexivity. }
      constructor; cbn [passed scode smem]; rewrite ?upd_same.
      + rewrite T1, phase_own, <- app_assoc. reflexivity.
      + intros c. rewrite T2. rewrite phase_own. reflexivity.
      + exact T3.
      + intros a. rewrite lonely_app. unfold lonely at 1. cbn [fold_left].
        apply exec_line_same.
        * intros b. rewrite upd_same. apply T4.
        * intros q b N R. rewrite upd_other by assumption.
          assert (Hq : q < S).
          { unfold reads_at in R. destruct (source i) as [[[[| |[|k]] o] n]|]; try contradiction. destruct R as [<- _]. apply owner_below. exact Hp. }
          destruct (T q Hq) as (dq & Tq). apply (memory_before s p q dq RF i b); try assumption.
          intros r' X. rewrite E in X. discriminate.
    - exists []. rewrite E in *. rewrite phase_barrier, app_nil_r in T1.
      constructor; cbn [passed scode smem]; rewrite ?upd_same.
      + assert (X := T2 0). rewrite Nat.add_0_r in X. rewrite X. reflexivity.
      + intros c. replace (passed s p + 1 + 1 + c) with (passed s p + 1 + (1 + c)) by lia. rewrite T2. reflexivity.
      + rewrite <- T3. cbn. unfold node_barriers. cbn. lia.
      + intros a. rewrite T4. rewrite Nat.add_1_r. cbn [before_phase]. rewrite T1. reflexivity.
  Qed.

  Lemma reach_stands (RF : race_free S prog) s : sreach op S (sstart prog m) s ->
    close s /\ forall q, q < S -> exists done, stands s q done.
  Proof.
    intros R. induction R as [|s t p _ [C T] Hp E].
    - split; [intros p q _ _; cbn; split; [lia|intros; lia]|]. intros q _. exists []. constructor; cbn; try reflexivity.
    - split; [exact (close_step s p t Hp C E)|]. intros q Hq. destruct (Nat.eq_dec q p) as [->|N].
      + exact (stands_self s p t RF Hp C T E).
      + destruct (T q Hq) as (done & Tq). exists done. exact (stands_other s p t q done N E Tq).
  Qed.

  Lemma race_free_end (RF : race_free S prog) :
    ends_with op S prog m (fun p => M (node_barriers (prog p) + 1) p).
  Proof.
    intros s R F p a Hp. destruct (reach_stands RF s R) as [_ T]. destruct (T p Hp) as (done & [T1 T2 T3 T4]).
    rewrite (F p Hp) in *. rewrite T4. unfold node_barriers in T3 at 1. cbn in T3. rewrite Nat.add_0_r in T3.
    rewrite <- T3, Nat.add_1_r. cbn [before_phase]. rewrite T1. unfold phase at 1. cbn. rewrite app_nil_r. reflexivity.
  Qed.

  (* ---------- no deadlock ---------- *)
  Lemma left_reach s : sreach op S (sstart prog m) s -> forall p, p < S ->
    passed s p + node_barriers (scode s p) = node_barriers (prog p) /\ (forall l, In l (scode s p) -> In l (prog p)).
  Proof.
    intros R. induction R as [|s t p _ IH Hp E]; intros q Hq; [split; [reflexivity|auto]|].
    apply sstep_cases in E. destruct (IH q Hq) as [I1 I2].
    destruct E as [(i & r & E & _ & ->)|(r & E & A & ->)]; cbn [passed scode]; unfold upd; destruct (Nat.eq_dec q p) as [->|N]; try (split; assumption); rewrite E in *.
    - split; [exact I1|]. intros l Hl. apply I2. right. exact Hl.
    - split; [rewrite <- I1; unfold node_barriers; cbn; lia|]. intros l Hl. apply I2. right. exact Hl.
  Qed.
  Lemma least (f : nat -> nat) (P : nat -> bool) n : (forall p, p < n -> P p = false) \/
    exists p, p < n /\ P p = true /\ forall q, q < n -> P q = true -> f p <= f q.
  Proof.
    induction n as [|n [IH|(p & Hp & Pp & IH)]]; [left; intros; lia| |].
    - destruct (P n) eqn:E.
      + right. exists n. split; [lia|split; [exact E|]]. intros q Hq Pq. destruct (Nat.eq_dec q n) as [->|N]; [lia|].
        rewrite IH in Pq by lia. discriminate.
      + left. intros p Hp. destruct (Nat.eq_dec p n) as [->|N]; [exact E|apply IH; lia].
    - right. destruct (P n) eqn:E.
      + destruct (le_lt_dec (f p) (f n)) as [L|L].
        * exists p. split; [lia|split; [exact Pp|]]. intros q Hq Pq. destruct (Nat.eq_dec q n) as [->|N]; [lia|apply IH; [lia|exact Pq]].
        * exists n. split; [lia|split; [exact E|]]. intros q Hq Pq. destruct (Nat.eq_dec q n) as [->|N]; [lia|].
          assert (X := IH q ltac:(lia) Pq). lia.
      + exists p. split; [lia|split; [exact Pp|]]. intros q Hq Pq. destruct (Nat.eq_dec q n) as [->|N]; [congruence|apply IH; [lia|exact Pq]].
  Qed.
  Lemma same_barriers_go_on : (forall p, p < S -> no_messages (prog p)) ->
    (forall p q, p < S -> q < S -> node_barriers (prog p) = node_barriers (prog q)) -> goes_on op S prog m.
  Proof.
    intros NM NB s R. assert (L := left_reach s R).
    destruct (least (passed s) (fun p => match scode s p with [] => false | _ => true end) S) as [D|(p & Hp & Pp & Min)].
    - left. intros p Hp. specialize (D p Hp). destruct (scode s p); [reflexivity|discriminate].
    - right. destruct (least (passed s) (fun p => match scode s p with Own _ :: _ => true | _ => false end) S) as [D|(q & Hq & Pq & _)].
      + assert (At : forall q, q < S -> scode s q = [] \/ exists r, scode s q = NodeBarrier :: r).
        { intros q Hq. specialize (D q Hq). destruct (scode s q) as [|[|] r]; [left; reflexivity|discriminate|right; eexists; reflexivity]. }
        destruct (At p Hp) as [X|(r & X)]; [rewrite X in Pp; discriminate|].
        exists p. unfold sstep. rewrite X.
        assert (F : forallb (arrived s p) (seq 0 S) = true).
        { apply forallb_forall. intros q Hq. apply in_seq in Hq. unfold arrived. apply orb_true_iff.
          destruct (L p Hp) as [L1 _]. destruct (L q ltac:(lia)) as [L2 _]. rewrite (NB q p) in L2 by lia.
          rewrite X in L1. unfold node_barriers in L1 at 1. cbn in L1.
          destruct (At q ltac:(lia)) as [Y|(r' & Y)].
          - left. apply Nat.ltb_lt. rewrite Y in L2. unfold node_barriers in L2 at 1. cbn in L2. lia.
          - assert (Z := Min q ltac:(lia)). rewrite Y in Z |- *. specialize (Z eq_refl).
            destruct (Nat.eq_dec (passed s q) (passed s p)) as [Q|Q]; [right|left; apply Nat.ltb_lt; lia].
            rewrite Q, Nat.eqb_refl. reflexivity. }
        rewrite F. eexists. split; [exact Hp|reflexivity].
      + exists q. unfold sstep. destruct (scode s q) as [|[i|] r] eqn:X; try discriminate.
        assert (N : is_message i = false).
        { apply (NM q Hq). apply (proj2 (L q Hq)). rewrite X. left. reflexivity. }
        destruct i; try discriminate N; eexists; (split; [exact Hq|reflexivity]).
  Qed.
End Race.

Lemma go_on {V} (op : V -> V -> V) S prog (m : nat -> @memory V) : (forall p, p < S -> no_messages (prog p)) ->
  (forall p q, p < S -> q < S -> node_barriers (prog p) = node_barriers (prog q)) -> goes_on op S prog m.
Proof. destruct S as [|S]; [intros _ _ s _; left; intros p Hp; lia|]. apply same_barriers_go_on. lia. Qed.

(* ---------- a check for given code ---------- *)
Definition clash (S p q : nat) (i j : instr) : bool :=
  match source i, target j with
  | Some ((Shm (Datatypes.S k), o), n), Some ((Shm 0, o'), n') => (owner S p (Datatypes.S k) =? q) && (o <? o' + n') && (o' <? o + n)
  | _, _ => false
  end.
Definition quiet (S : nat) (code : nat -> list sline) : bool :=
  forallb (fun p => forallb (fun q => (p =? q) ||
    forallb (fun b => forallb (fun i => forallb (fun j => negb (clash S p q i j)) (phase b (code q))) (phase b (code p)))
      (seq 0 (length (phases (code p))))) (seq 0 S)) (seq 0 S).
Lemma quiet_race_free S code : quiet S code = true -> race_free S code.
Proof.
  intros H p q b i j a Hp Hq N Hi Hj R W. unfold quiet in H. rewrite forallb_forall in H.
  specialize (H p ltac:(apply in_seq; lia)). rewrite forallb_forall in H.
  specialize (H q ltac:(apply in_seq; lia)). apply orb_true_iff in H. destruct H as [H|H]; [apply Nat.eqb_eq in H; contradiction|].
  rewrite forallb_forall in H.
  assert (Hb : b < length (phases (code p))).
  { destruct (le_lt_dec (length (phases (code p))) b) as [L|L]; [|exact L]. unfold phase in Hi. rewrite nth_overflow in Hi by exact L. destruct Hi. }
  specialize (H b ltac:(apply in_seq; lia)). rewrite forallb_forall in H. specialize (H i Hi). rewrite forallb_forall in H. specialize (H j Hj).
  apply negb_true_iff in H. unfold clash, reads_at, writes_at in *.
  destruct (source i) as [[[[| |[|k]] o] n]|]; try contradiction. destruct R as [R1 R2].
  destruct (target j) as [[[db o'] n']|]; [|contradiction].
  unfold inside in R2, W. cbn [fst snd] in R2, W.
  destruct a as [ab ao]. cbn [fst snd] in R2, W.
  destruct ab as [| |[|k']]; cbn [buffer_eqb Nat.eqb andb] in R2; try discriminate.
  destruct db as [| |[|k']]; cbn [buffer_eqb Nat.eqb andb] in W; try discriminate.
  apply andb_true_iff in R2, W. rewrite !Nat.leb_le, !Nat.ltb_lt in R2, W.
  assert (X : (owner S p (Datatypes.S k) =? q) && (o <? o' + n') && (o' <? o + n) = true).
  { rewrite R1, Nat.eqb_refl. cbn [andb]. apply andb_true_iff. rewrite !Nat.ltb_lt. lia. }
  rewrite X in H. discriminate.
Qed.
