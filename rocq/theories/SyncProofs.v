(* Programs of set / wait pairs: what a core knows about the progress of the
   others, absence of deadlock, and equality of every complete execution with
   the execution in lock step. *)
From Verif Require Import Base BarrierModel NodeModel.
From Coq Require Import Permutation.
Local Open Scope nat_scope.

(* the accesses of a micro instruction *)
Definition clash (k1 : kind) (d1 : Z) (s1 : operand) (k2 : kind) (d2 : Z) (s2 : operand) : Prop :=
  d1 = d2 \/ s2 = Shm d1 \/ s1 = Shm d2.

Definition nS (l : list micro) : nat := length (filter (fun x => match x with MSet _ => true | _ => false end) l).
Definition nW (l : list micro) : nat := length (filter (fun x => match x with MWait _ => true | _ => false end) l).

Lemma nS_app a b : nS (a ++ b) = nS a + nS b.
Proof. unfold nS. now rewrite filter_app, app_length. Qed.
Lemma nW_app a b : nW (a ++ b) = nW a + nW b.
Proof. unfold nW. now rewrite filter_app, app_length. Qed.

(* Well-formed programs of core [own] among [n]: every wait is preceded by a
   set of the own flag, with nothing in between; [b]: a wait is due. *)
Fixpoint okb (n own : nat) (b : bool) (l : list micro) : Prop :=
  match l with
  | [] => b = false
  | MSet e :: p => b = false /\ e = Z.of_nat own /\ okb n own true p
  | MWait e :: p => b = true /\ (exists x, x < n /\ e = Z.of_nat x) /\ okb n own false p
  | MAct _ _ _ :: p => b = false /\ okb n own false p
  end.

Lemma okb_app n own p : forall b q, okb n own b p -> okb n own false q -> okb n own b (p ++ q).
Proof.
  induction p as [|[e|e|k d s] p IH]; simpl; intros b q H Hq.
  - now subst.
  - intuition.
  - intuition.
  - intuition.
Qed.

(* After a prefix the number of sets is that of the waits, or one more if a
   wait is due. *)
Lemma okb_split n own p : forall b q, okb n own b (p ++ q) ->
  exists b', okb n own b' q /\ nS p + (if b then 1 else 0) = nW p + (if b' then 1 else 0).
Proof.
  induction p as [|[e|e|k d s] p IH]; simpl; intros b q H.
  - exists b. auto.
  - destruct H as (-> & -> & H). destruct (IH true q H) as (b' & Hq & E). exists b'. split; auto.
    unfold nS, nW in *. simpl in *. lia.
  - destruct H as (-> & _ & H). destruct (IH false q H) as (b' & Hq & E). exists b'. split; auto.
    unfold nS, nW in *. simpl in *. lia.
  - destruct H as (-> & H). destruct (IH false q H) as (b' & Hq & E). exists b'. split; auto.
Qed.

Definition waits (l : list micro) : list Z :=
  flat_map (fun x => match x with MWait e => [e] | _ => [] end) l.

Lemma waits_app a b : waits (a ++ b) = waits a ++ waits b.
Proof. unfold waits. apply flat_map_app. Qed.

Lemma waits_length l : length (waits l) = nW l.
Proof. induction l as [|[e|e|k d s] l IH]; simpl; auto. unfold nW in *. simpl. lia. Qed.

(* The [j]-th segment: the actions between the waits. *)
Fixpoint segm (l : list micro) (j : nat) : list (kind * Z * operand) :=
  match l with
  | [] => []
  | MSet _ :: p => segm p j
  | MWait _ :: p => match j with O => [] | S j' => segm p j' end
  | MAct k d s :: p => match j with O => (k, d, s) :: segm p O | S _ => segm p j end
  end.

Lemma segm_app_lt p : forall q j, j < nW p -> segm (p ++ q) j = segm p j.
Proof.
  induction p as [|[e|e|k d s] p IH]; simpl; intros q j H.
  - unfold nW in H. simpl in H. lia.
  - now apply IH.
  - destruct j; auto. apply IH. unfold nW in *. simpl in *. lia.
  - destruct j; [f_equal|]; apply IH; auto.
Qed.

Lemma segm_app_eq p : forall q, segm (p ++ q) (nW p) = segm p (nW p) ++ segm q 0.
Proof.
  induction p as [|[e|e|k d s] p IH]; intros q.
  - reflexivity.
  - apply IH.
  - apply IH.
  - change (nW (MAct k d s :: p)) with (nW p). simpl. destruct (nW p) eqn:E.
    + simpl. f_equal. apply IH.
    + apply IH.
Qed.

Lemma segm_app_gt p : forall q j, nW p < j -> segm (p ++ q) j = segm q (j - nW p).
Proof.
  induction p as [|[e|e|k d s] p IH]; simpl; intros q j H.
  - unfold nW. simpl. now rewrite Nat.sub_0_r.
  - apply IH, H.
  - destruct j; [lia|]. unfold nW in *. simpl in *. rewrite IH by lia. reflexivity.
  - destruct j; [lia|]. apply IH, H.
Qed.

Lemma segm_beyond p : forall j, nW p < j -> segm p j = [].
Proof.
  induction p as [|[e|e|k d s] p IH]; simpl; intros j H; auto.
  - destruct j; [lia|]. apply IH. unfold nW in *. simpl in *. lia.
  - destruct j; [lia|]. apply IH, H.
Qed.

(* An action after [p] lies in segment nW p. *)
Lemma segm_at p : forall k d s q, In (k, d, s) (segm (p ++ MAct k d s :: q) (nW p)).
Proof. intros. rewrite segm_app_eq. apply in_or_app. right. simpl. auto. Qed.

Section Sync.
  Context (n : nat) (prog : nat -> list micro) (K : nat).

  (* [knows c j d m]: when core c has passed its j-th wait, core d has
     executed the set that ends segment m. *)
  Inductive knows : nat -> nat -> nat -> nat -> Prop :=
  | k_self c j m : m < j -> knows c j c m
  | k_wait c j x : nth_error (waits (prog c)) j = Some (Z.of_nat x) -> knows c (S j) x j
  | k_trans c j x d m : nth_error (waits (prog c)) j = Some (Z.of_nat x) ->
      knows x j d m -> knows c (S j) d m
  | k_mono c j j' d m : knows c j d m -> j <= j' -> knows c j' d m
  | k_down c j d m m' : knows c j d m -> m' <= m -> knows c j d m'.

  Lemma knows_lt c j d m : knows c j d m -> m < j.
  Proof. induction 1; lia. Qed.

  Hypothesis prog_ok : forall c, c < n -> okb n c false (prog c).
  Hypothesis prog_K : forall c, c < n -> nW (prog c) = K.
  (* No core gets far ahead of another one: the 32 bits of the counters suffice. *)
  Definition near : Prop := forall c x j, c < n -> x < n -> j <= K ->
    exists L, (Z.of_nat L < 2^31)%Z /\ (j <= L \/ knows c j x (j - L)).
  Lemma near_small : (Z.of_nat K < 2^31)%Z -> near.
  Proof using Type. intros S c x j _ _ Hj. exists K. auto. Qed.
  Hypothesis K_small : near.

  Context {V : Type} (op : V -> V -> V) (send : nat -> Z -> V) (c0 : Z) (m0 : Z -> V).
  Let start : @nstate V := NS prog (fun _ => wrap c0) (fun _ => wrap (c0 - 1)) m0.

  (* A label: core and position in its program. *)
  Definition perform (l : nat * nat) (m : Z -> V) : Z -> V :=
    match nth_error (prog (fst l)) (snd l) with
    | Some (MAct k d s) => effect op send (fst l) k d s m
    | _ => m
    end.
  Definition performs (t : list (nat * nat)) (m : Z -> V) : Z -> V :=
    fold_left (fun m l => perform l m) t m.

  Lemma performs_app a b m : performs (a ++ b) m = performs b (performs a m).
  Proof. apply fold_left_app. Qed.

  Definition pos (s : @nstate V) (c : nat) : nat := length (prog c) - length (rest s c).

  Inductive run : list (nat * nat) -> @nstate V -> Prop :=
  | run_start : run [] start
  | run_step t s c s' : run t s -> c < n -> nstep op send s c = Some s' -> run (t ++ [(c, pos s c)]) s'.

  Lemma nreach_run s : nreach op send n start s -> exists t, run t s.
  Proof.
    induction 1.
    - exists []. constructor.
    - destruct IHnreach as [t Ht]. exists (t ++ [(c, pos s c)]). econstructor; eauto.
  Qed.

  Definition done (s : @nstate V) (c : nat) : list micro := firstn (pos s c) (prog c).

  Record good (s : @nstate V) : Prop := {
    g_split : forall c, c < n -> prog c = done s c ++ rest s c;
    g_counter : forall c, c < n -> counter s c = wrap (c0 + Z.of_nat (nW (done s c)));
    g_flags : forall c, c < n -> flags s (Z.of_nat c) = wrap (c0 + Z.of_nat (nS (done s c)) - 1);
    g_knows : forall c d j m, c < n -> d < n -> j <= nW (done s c) -> knows c j d m ->
      m < nS (done s d) }.

  Lemma split_done s c p q : prog c = p ++ q -> rest s c = q -> done s c = p.
  Proof.
    intros E Er. unfold done, pos. rewrite Er, E, app_length.
    replace (length p + length q - length q) with (length p + 0) by lia.
    rewrite firstn_app_2. simpl. now rewrite app_nil_r.
  Qed.

  Lemma done_same (s s' : @nstate V) d : rest s' d = rest s d -> done s' d = done s d.
  Proof. intros E. unfold done, pos. now rewrite E. Qed.

  Lemma wrap_wrap_add a b : wrap (wrap a + b) = wrap (a + b).
  Proof. unfold wrap. rewrite Zplus_mod_idemp_l. reflexivity. Qed.

  Lemma reached_iff a b : (- 2^31 <= a - b < 2^31)%Z ->
    not_reached (wrap a) (wrap b) = (a <? b)%Z.
  Proof.
    intros H. unfold not_reached, wrap.
    rewrite <- Zminus_mod.
    destruct (Z.ltb_spec a b) as [L|L].
    - apply Z.ltb_lt. rewrite <- (Z.mod_unique (a - b) (2^32) (-1) (a - b + 2^32)); lia.
    - apply Z.ltb_ge. rewrite Z.mod_small; lia.
  Qed.

  Lemma nW_done_le s c : c < n -> nW (done s c) <= K.
  Proof.
    intros Hc. rewrite <- (prog_K c Hc). unfold done.
    rewrite <- (firstn_skipn (pos s c) (prog c)) at 2. rewrite nW_app. lia.
  Qed.

  Lemma nS_nW_done s c : c < n -> prog c = done s c ++ rest s c ->
    exists b, okb n c b (rest s c) /\ nS (done s c) = nW (done s c) + (if b then 1 else 0).
  Proof.
    intros Hc E. pose proof (prog_ok c Hc) as O. rewrite E in O.
    destruct (okb_split n c _ _ _ O) as (b & H1 & H2). exists b. split; auto. lia.
  Qed.

  Lemma good_start : good start.
  Proof.
    assert (D : forall c, done start c = []).
    { intros c. unfold done, pos, start. simpl. now rewrite Nat.sub_diag. }
    split; intros.
    - now rewrite D.
    - rewrite D. simpl. f_equal. lia.
    - rewrite D. simpl. f_equal. lia.
    - rewrite D in H1. apply knows_lt in H2. unfold nW in H1. simpl in H1. lia.
  Qed.

  Lemma upd_rest_same (s : @nstate V) c p : upd Nat.eq_dec (rest s) c p c = p.
  Proof. apply upd_same. Qed.

  (* what one step of core c does to the executed part *)
  Lemma step_done s c x p s' : good s -> c < n -> rest s c = x :: p ->
    rest s' = upd Nat.eq_dec (rest s) c p ->
    (forall d, d < n -> prog d = done s' d ++ rest s' d) /\
    done s' c = done s c ++ [x] /\ (forall d, d <> c -> done s' d = done s d).
  Proof.
    intros G Hc E Er.
    assert (D : done s' c = done s c ++ [x]).
    { apply split_done with (q := p).
      - rewrite <- app_assoc. simpl. rewrite <- E. now apply g_split.
      - rewrite Er. apply upd_same. }
    assert (O : forall d, d <> c -> done s' d = done s d).
    { intros d Hd. apply done_same. rewrite Er. now apply upd_other. }
    split; [|split]; auto.
    intros d Hd. destruct (Nat.eq_dec d c) as [->|Ne].
    - rewrite D, Er, upd_same, <- app_assoc. simpl. rewrite <- E. now apply g_split.
    - rewrite O, Er, upd_other by auto. now apply g_split.
  Qed.

  Lemma nS_le_K s c : good s -> c < n -> nS (done s c) <= K.
  Proof.
    intros G Hc. destruct (nS_nW_done s c Hc (g_split s G c Hc)) as (b & Ob & Eb).
    destruct b; [|pose proof (nW_done_le s c Hc); lia].
    destruct (rest s c) as [|[e|e|k d s1] p] eqn:Er; simpl in Ob; try (destruct Ob; congruence); try congruence.
    pose proof (prog_K c Hc) as PK. rewrite (g_split s G c Hc), nW_app, Er in PK.
    unfold nW in *. simpl in PK. lia.
  Qed.

  (* the counters of two cores, one of which is about to wait, are close to each other *)
  Lemma wait_range s c x : good s -> c < n -> x < n -> nS (done s c) = nW (done s c) + 1 ->
    (- 2^31 <= Z.of_nat (nS (done s x)) - 1 - Z.of_nat (nW (done s c)) < 2^31)%Z.
  Proof.
    intros G Hc Hx Eb.
    destruct (K_small c x (nW (done s c)) Hc Hx (nW_done_le s c Hc)) as (L & HL & Kc).
    destruct (K_small x c (nW (done s x)) Hx Hc (nW_done_le s x Hx)) as (L' & HL' & Kx).
    assert (A1 : nW (done s c) <= nS (done s x) + L).
    { destruct Kc as [|Kc]; [lia|]. pose proof (g_knows s G c x _ _ Hc Hx (le_n _) Kc). lia. }
    assert (A2 : nW (done s x) <= nS (done s c) + L' - 1 \/ nW (done s x) <= L').
    { destruct Kx as [|Kx]; [auto|]. pose proof (g_knows s G x c _ _ Hx Hc (le_n _) Kx). lia. }
    destruct (nS_nW_done s x Hx (g_split s G x Hx)) as (b & _ & Ex).
    assert (A3 : nS (done s x) <= nW (done s x) + 1) by (destruct b; lia).
    lia.
  Qed.

  (* a wait is passed exactly when the partner has set its flag *)
  Lemma wait_passes s c e p : good s -> c < n -> rest s c = MWait e :: p ->
    exists x, x < n /\ e = Z.of_nat x /\
      nth_error (waits (prog c)) (nW (done s c)) = Some (Z.of_nat x) /\
      not_reached (flags s e) (counter s c) = (nS (done s x) <=? nW (done s c)).
  Proof.
    intros G Hc Er.
    destruct (nS_nW_done s c Hc (g_split s G c Hc)) as (b & Ob & Eb). rewrite Er in Ob.
    simpl in Ob. destruct Ob as (-> & (x & Hx & ->) & _).
    exists x. repeat split; auto.
    - rewrite (g_split s G c Hc), waits_app, Er, nth_error_app2; rewrite waits_length; auto.
      rewrite Nat.sub_diag. reflexivity.
    - rewrite (g_counter s G c Hc), (g_flags s G x Hx).
      pose proof (wait_range s c x G Hc Hx Eb).
      rewrite reached_iff by lia. lia.
  Qed.

  Lemma good_step s c s' : good s -> c < n -> nstep op send s c = Some s' -> good s'.
  Proof.
    intros G Hc St. unfold nstep in St.
    destruct (rest s c) as [|[e|e|k dd s1] p] eqn:Er; try discriminate.
    - (* set *)
      destruct (nS_nW_done s c Hc (g_split s G c Hc)) as (b & Ob & Eb). rewrite Er in Ob.
      simpl in Ob. destruct Ob as (-> & -> & _).
      inversion St; subst s'; clear St.
      destruct (step_done s c _ p (NS (upd Nat.eq_dec (rest s) c p) (counter s)
            (upd Z.eq_dec (flags s) (Z.of_nat c) (counter s c)) (mem s)) G Hc Er eq_refl) as (Sp & Dc & Do).
      match goal with |- good ?x => set (s' := x) in * end.
      assert (EW : forall d, nW (done s' d) = nW (done s d)).
      { intros d. destruct (Nat.eq_dec d c) as [->|Ne]; [|now rewrite Do].
        rewrite Dc, nW_app. unfold nW at 2. simpl. lia. }
      assert (ES : forall d, nS (done s d) <= nS (done s' d)).
      { intros d. destruct (Nat.eq_dec d c) as [->|Ne]; [|now rewrite Do].
        rewrite Dc, nS_app. lia. }
      split; auto.
      + intros d Hd. rewrite EW. simpl. now apply g_counter.
      + intros d Hd. simpl. unfold upd at 1. destruct (Z.eq_dec (Z.of_nat d) (Z.of_nat c)) as [E|Ne].
        * apply Nat2Z.inj in E. subst d. rewrite (g_counter s G c Hc), Dc, nS_app.
          unfold nS at 2. simpl. f_equal. lia.
        * rewrite Do by congruence. now apply g_flags.
      + intros a d j m Ha Hd Hj Kn. rewrite EW in Hj.
        specialize (ES d). pose proof (g_knows s G a d j m Ha Hd Hj Kn). lia.
    - (* wait *)
      destruct (wait_passes s c e p G Hc Er) as (x & Hx & -> & Nx & NR).
      rewrite NR in St. destruct (nS (done s x) <=? nW (done s c)) eqn:Le; [discriminate|].
      apply Nat.leb_gt in Le. inversion St; subst s'; clear St.
      destruct (step_done s c _ p (NS (upd Nat.eq_dec (rest s) c p)
            (upd Nat.eq_dec (counter s) c (wrap (counter s c + 1))) (flags s) (mem s)) G Hc Er eq_refl)
        as (Sp & Dc & Do).
      match goal with |- good ?x => set (s' := x) in * end.
      destruct (nS_nW_done s c Hc (g_split s G c Hc)) as (b & Ob & Eb). rewrite Er in Ob.
      simpl in Ob. destruct Ob as (-> & _ & _).
      assert (ES : forall d, nS (done s' d) = nS (done s d)).
      { intros d. destruct (Nat.eq_dec d c) as [->|Ne]; [|now rewrite Do].
        rewrite Dc, nS_app. unfold nS at 2. simpl. lia. }
      assert (EWc : nW (done s' c) = S (nW (done s c))).
      { rewrite Dc, nW_app. unfold nW at 2. simpl. lia. }
      split; auto.
      + intros d Hd. simpl. destruct (Nat.eq_dec d c) as [->|Ne].
        * rewrite upd_same, EWc, (g_counter s G c Hc), wrap_wrap_add. f_equal. lia.
        * rewrite upd_other by auto. rewrite Do by auto. now apply g_counter.
      + intros d Hd. rewrite ES. simpl. now apply g_flags.
      + assert (New : forall a d j m, knows a j d m -> a < n -> d < n -> j <= nW (done s' a) ->
                        m < nS (done s d)).
        { intros a d j m Kn. induction Kn as [a j m H|a j y Hy|a j y d m Hy Kn IH|a j j' d m Kn IH Le'|a j d m m' Kn IH Le'];
            intros Ha Hd Hj.
          - destruct (Nat.eq_dec a c) as [->|Ne].
            + rewrite EWc in Hj. lia.
            + rewrite Do in Hj by auto.
              apply (g_knows s G a a j m); auto. now constructor.
          - destruct (Nat.eq_dec a c) as [->|Ne].
            + rewrite EWc in Hj. destruct (Nat.eq_dec j (nW (done s c))) as [->|Nj].
              * rewrite Nx in Hy. inversion Hy as [Q]. apply Nat2Z.inj in Q. now subst.
              * apply (g_knows s G c y (S j) j); auto; [lia|]. now constructor.
            + rewrite Do in Hj by auto. apply (g_knows s G a y (S j) j); auto. now constructor.
          - destruct (Nat.eq_dec a c) as [->|Ne].
            + rewrite EWc in Hj. destruct (Nat.eq_dec j (nW (done s c))) as [->|Nj].
              * rewrite Nx in Hy. inversion Hy as [Q]. apply Nat2Z.inj in Q. subst y.
                destruct (Nat.eq_dec x c) as [->|Nxc].
                -- apply (g_knows s G c d (nW (done s c)) m); auto.
                -- apply (g_knows s G x d (nW (done s c)) m); auto.
                   destruct (nS_nW_done s x Hx (g_split s G x Hx)) as (b & _ & Q). destruct b; lia.
              * apply (g_knows s G c d (S j) m); auto; [lia|]. econstructor; eauto.
            + rewrite Do in Hj by auto. apply (g_knows s G a d (S j) m); auto. econstructor; eauto.
          - apply IH; auto. lia.
          - specialize (IH Ha Hd Hj). lia. }
        intros a d j m Ha Hd Hj Kn. rewrite ES. eapply New; eauto.
    - (* action *)
      inversion St; subst s'; clear St.
      destruct (step_done s c _ p (NS (upd Nat.eq_dec (rest s) c p) (counter s) (flags s)
            (effect op send c k dd s1 (mem s))) G Hc Er eq_refl) as (Sp & Dc & Do).
      match goal with |- good ?x => set (s' := x) in * end.
      assert (EW : forall d, nW (done s' d) = nW (done s d)).
      { intros d. destruct (Nat.eq_dec d c) as [->|Ne]; [|now rewrite Do].
        rewrite Dc, nW_app. unfold nW at 2. simpl. lia. }
      assert (ES : forall d, nS (done s' d) = nS (done s d)).
      { intros d. destruct (Nat.eq_dec d c) as [->|Ne]; [|now rewrite Do].
        rewrite Dc, nS_app. unfold nS at 2. simpl. lia. }
      split; auto.
      + intros d Hd. rewrite EW. simpl. now apply g_counter.
      + intros d Hd. rewrite ES. simpl. now apply g_flags.
      + intros a d j m Ha Hd Hj Kn. rewrite EW in Hj. rewrite ES. exact (g_knows s G a d j m Ha Hd Hj Kn).
  Qed.

  Lemma run_good t s : run t s -> good s.
  Proof. induction 1; [apply good_start|eapply good_step; eauto]. Qed.

  (* ---- progress ---- *)

  (* the least advanced core can always go on *)
  Lemma least_core (f : nat -> nat) : 0 < n -> exists c, c < n /\ forall d, d < n -> f c <= f d.
  Proof.
    clear. induction n as [|k IH]; intros H; [lia|].
    destruct k as [|k'].
    - exists 0. split; auto. intros d Hd. replace d with 0 by lia. lia.
    - destruct IH as (c & Hc & L); [lia|].
      destruct (le_lt_dec (f c) (f (S k'))) as [Q|Q].
      + exists c. split; [lia|]. intros d Hd. destruct (Nat.eq_dec d (S k')) as [->|]; auto. apply L. lia.
      + exists (S k'). split; [lia|]. intros d Hd. destruct (Nat.eq_dec d (S k')) as [->|]; auto.
        assert (d < S k') by lia. specialize (L d H0). lia.
  Qed.

  Lemma progress t s : run t s -> (exists c, c < n /\ rest s c <> []) ->
    exists c s', c < n /\ nstep op send s c = Some s'.
  Proof.
    intros R (c1 & Hc1 & Ne1). pose proof (run_good t s R) as G.
    (* among the cores take the one with the fewest sets and waits *)
    destruct (least_core (fun c => nS (done s c) + nW (done s c)) ltac:(lia)) as (c & Hc & L).
    destruct (rest s c) as [|[e|e|k d s1] p] eqn:Er.
    - (* finished: it has executed K sets and waits, so the others have nothing but actions left *)
      assert (Wc : nW (done s c) = K).
      { rewrite <- (prog_K c Hc). pose proof (g_split s G c Hc) as Q. rewrite Er, app_nil_r in Q.
        now rewrite <- Q. }
      destruct (nS_nW_done s c Hc (g_split s G c Hc)) as (b & Ob & Eb). rewrite Er in Ob. simpl in Ob. subst b.
      specialize (L c1 Hc1). pose proof (nW_done_le s c1 Hc1). pose proof (nS_le_K s c1 G Hc1).
      exists c1.
      destruct (rest s c1) as [|[e|e|k d s1] p] eqn:E1; [congruence| | |].
      + eexists. split; auto. unfold nstep. rewrite E1. reflexivity.
      + exfalso. pose proof (prog_K c1 Hc1) as PK. rewrite (g_split s G c1 Hc1), nW_app, E1 in PK.
        assert (nW (MWait e :: p) = S (nW p)) by (unfold nW; reflexivity). lia.
      + eexists. split; auto. unfold nstep. rewrite E1. reflexivity.
    - exists c. eexists. split; auto. unfold nstep. rewrite Er. reflexivity.
    - destruct (wait_passes s c e p G Hc Er) as (x & Hx & -> & _ & NR).
      exists c. unfold nstep. rewrite Er, NR.
      destruct (nS_nW_done s c Hc (g_split s G c Hc)) as (b & Ob & Eb). rewrite Er in Ob.
      simpl in Ob. destruct Ob as (-> & _).
      destruct (nS_nW_done s x Hx (g_split s G x Hx)) as (b & _ & Ebx).
      specialize (L x Hx).
      destruct (nS (done s x) <=? nW (done s c)) eqn:Q.
      + apply Nat.leb_le in Q. destruct b; lia.
      + eexists. split; auto.
    - exists c. eexists. split; auto. unfold nstep. rewrite Er. reflexivity.
  Qed.

  Definition todo (s : @nstate V) : nat := list_sum (map (fun c => length (rest s c)) (seq 0 n)).

  Lemma list_sum_lt (f g : nat -> nat) c k : c < k -> f c < g c -> (forall d, f d <= g d) ->
    list_sum (map f (seq 0 k)) < list_sum (map g (seq 0 k)).
  Proof.
    clear. intros Hc Hl Hle.
    assert (M : forall l, list_sum (map f l) <= list_sum (map g l)).
    { induction l as [|a l IH]; simpl; auto. specialize (Hle a). lia. }
    assert (I : In c (seq 0 k)) by (apply in_seq; lia).
    apply in_split in I. destruct I as (l1 & l2 & ->).
    rewrite !map_app, !list_sum_app. simpl. pose proof (M l1). pose proof (M l2). lia.
  Qed.

  Lemma nstep_rest (s : @nstate V) c s' : nstep op send s c = Some s' ->
    exists x p, rest s c = x :: p /\ rest s' = upd Nat.eq_dec (rest s) c p.
  Proof.
    unfold nstep. destruct (rest s c) as [|[e|e|k d s1] p] eqn:Er; try discriminate; intros H.
    - inversion H; subst; eauto.
    - destruct (not_reached _ _); inversion H; subst; eauto.
    - inversion H; subst; eauto.
  Qed.

  Lemma todo_decreases s c s' : c < n -> nstep op send s c = Some s' -> todo s' < todo s.
  Proof.
    intros Hc H. destruct (nstep_rest _ _ _ H) as (x & p & Er & Es).
    unfold todo. apply list_sum_lt with (c := c); auto.
    - rewrite Es, upd_same, Er. simpl. lia.
    - intros d. rewrite Es. unfold upd. destruct (Nat.eq_dec d c) as [->|]; auto. rewrite Er. simpl. lia.
  Qed.

  Definition complete (s : @nstate V) : Prop := forall c, c < n -> rest s c = [].

  (* every execution can be continued to a complete one *)
  Lemma can_complete : forall k t s, todo s <= k -> run t s -> exists t' s', run (t ++ t') s' /\ complete s'.
  Proof.
    induction k as [|k IH]; intros t s Hk R.
    - exists [], s. rewrite app_nil_r. split; auto. intros c Hc.
      destruct (rest s c) eqn:E; auto. exfalso.
      destruct (progress t s R) as (c' & s' & Hc' & St).
      + exists c. split; auto. congruence.
      + pose proof (todo_decreases _ _ _ Hc' St). lia.
    - destruct (forallb (fun c => match rest s c with [] => true | _ => false end) (seq 0 n)) eqn:E.
      + exists [], s. rewrite app_nil_r. split; auto. intros c Hc.
        rewrite forallb_forall in E. specialize (E c). rewrite in_seq in E.
        destruct (rest s c); auto. now specialize (E ltac:(lia)).
      + assert (X : exists c, c < n /\ rest s c <> []).
        { apply not_true_iff_false in E.
          destruct (existsb (fun c => match rest s c with [] => false | _ => true end) (seq 0 n)) eqn:Q.
          - apply existsb_exists in Q. destruct Q as (c & I & Q). apply in_seq in I. exists c. split; [lia|].
            destruct (rest s c); congruence.
          - exfalso. apply E. apply forallb_forall. intros c I.
            assert (N := Q). rewrite <- not_true_iff_false, existsb_exists in N.
            destruct (rest s c) eqn:Er; auto. exfalso. apply N. exists c. rewrite Er. auto. }
        destruct (progress t s R X) as (c & s' & Hc & St).
        pose proof (todo_decreases _ _ _ Hc St).
        destruct (IH (t ++ [(c, pos s c)]) s') as (t' & s'' & R' & C); [lia|econstructor; eauto|].
        exists ((c, pos s c) :: t'), s''. rewrite <- app_assoc in R'. split; auto.
  Qed.

  (* ---- traces ---- *)

  Definition eqm (m m' : Z -> V) : Prop := forall x, m x = m' x.

  Lemma effect_eqm c k d s m m' : eqm m m' -> eqm (effect op send c k d s m) (effect op send c k d s m').
  Proof.
    intros E x. unfold effect, upd. destruct (Z.eq_dec x d); auto.
    destruct s, k; rewrite ?E; auto.
  Qed.

  Lemma perform_eqm l m m' : eqm m m' -> eqm (perform l m) (perform l m').
  Proof.
    intros E. unfold perform. destruct (nth_error _ _) as [[]|]; auto. now apply effect_eqm.
  Qed.

  Lemma performs_eqm t : forall m m', eqm m m' -> eqm (performs t m) (performs t m').
  Proof. induction t as [|l t IH]; simpl; intros m m' E; auto. apply IH, perform_eqm, E. Qed.

  Lemma nth_error_done s c x p : good s -> c < n -> rest s c = x :: p ->
    nth_error (prog c) (pos s c) = Some x.
  Proof.
    intros G Hc E. pose proof (g_split s G c Hc) as Q.
    assert (L : length (done s c) = pos s c).
    { unfold done. apply firstn_length_le. unfold pos. lia. }
    rewrite Q, nth_error_app2 by lia. rewrite L, Nat.sub_diag, E. reflexivity.
  Qed.

  Lemma length_done s c : length (done s c) = pos s c.
  Proof. unfold done. apply firstn_length_le. unfold pos. lia. Qed.

  Lemma run_mem t s : run t s -> mem s = performs t m0.
  Proof.
    induction 1 as [|t s c s' R IH Hc St]; [reflexivity|].
    pose proof (run_good t s R) as G.
    rewrite performs_app, <- IH. simpl. unfold perform. simpl.
    unfold nstep in St. destruct (rest s c) as [|x p] eqn:Er; [discriminate|].
    rewrite (nth_error_done s c x p G Hc Er).
    destruct x as [e|e|k d s1]; [| |].
    - inversion St; reflexivity.
    - destruct (not_reached _ _); inversion St; reflexivity.
    - inversion St; reflexivity.
  Qed.

  Lemma pos_step s c s' : good s -> c < n -> nstep op send s c = Some s' ->
    pos s' c = S (pos s c) /\ (forall d, d <> c -> pos s' d = pos s d).
  Proof.
    intros G Hc St. destruct (nstep_rest _ _ _ St) as (x & p & Er & Es).
    destruct (step_done s c x p s' G Hc Er Es) as (_ & Dc & _).
    split.
    - rewrite <- !length_done, Dc, app_length. simpl. lia.
    - intros d Hd. unfold pos. now rewrite Es, upd_other.
  Qed.

  Lemma run_labels t s : run t s ->
    NoDup t /\ (forall c p, In (c, p) t <-> c < n /\ p < pos s c).
  Proof.
    induction 1 as [|t s c s' R IH Hc St].
    - split; [constructor|]. intros c p. unfold pos, start. simpl. rewrite Nat.sub_diag. lia.
    - pose proof (run_good t s R) as G. destruct IH as (ND & I).
      destruct (pos_step s c s' G Hc St) as (P1 & P2).
      split.
      + apply (Permutation_NoDup (Permutation_cons_append t (c, pos s c))).
        constructor; auto. rewrite I. lia.
      + intros d p. rewrite in_app_iff, I. simpl.
        destruct (Nat.eq_dec d c) as [->|Ne].
        * rewrite P1. split.
          -- intros [?|[E|[]]]; [lia|]. inversion E. lia.
          -- intros [_ H]. destruct (Nat.eq_dec p (pos s c)) as [->|]; auto. left. lia.
        * rewrite P2 by auto. split.
          -- intros [?|[E|[]]]; [lia|]. inversion E. congruence.
          -- auto.
  Qed.

  (* order of two elements in a list *)
  Definition before {A} (t : list A) (a b : A) : Prop := exists l1 l2 l3, t = l1 ++ a :: l2 ++ b :: l3.

  Lemma before_app {A} (t u : list A) a b : before t a b -> before (t ++ u) a b.
  Proof.
    intros (l1 & l2 & l3 & ->). exists l1, l2, (l3 ++ u).
    repeat (rewrite <- app_assoc; simpl). reflexivity.
  Qed.

  Lemma before_last {A} (t : list A) a b : In a t -> before (t ++ [b]) a b.
  Proof.
    intros I. apply in_split in I. destruct I as (l1 & l2 & ->). exists l1, l2, [].
    rewrite <- app_assoc. reflexivity.
  Qed.

  Lemma before_asym {A} (t : list A) a b : NoDup t -> before t a b -> before t b a -> False.
  Proof.
    intros ND (l1 & l2 & l3 & E) (r1 & r2 & r3 & E').
    (* position argument *)
    assert (P : forall i j, nth_error t i = Some a -> nth_error t j = Some a -> i = j).
    { intros i j Hi Hj. apply (proj1 (NoDup_nth_error t)); auto.
      - apply nth_error_Some. congruence.
      - congruence. }
    assert (P' : forall i j, nth_error t i = Some b -> nth_error t j = Some b -> i = j).
    { intros i j Hi Hj. apply (proj1 (NoDup_nth_error t)); auto.
      - apply nth_error_Some. congruence.
      - congruence. }
    assert (A1 : nth_error t (length l1) = Some a).
    { rewrite E, nth_error_app2, Nat.sub_diag; auto. }
    assert (B1 : nth_error t (length l1 + S (length l2)) = Some b).
    { rewrite E, nth_error_app2 by lia. replace (length l1 + S (length l2) - length l1) with (S (length l2)) by lia.
      simpl. rewrite nth_error_app2, Nat.sub_diag; auto. }
    assert (B2 : nth_error t (length r1) = Some b).
    { rewrite E', nth_error_app2, Nat.sub_diag; auto. }
    assert (A2 : nth_error t (length r1 + S (length r2)) = Some a).
    { rewrite E', nth_error_app2 by lia. replace (length r1 + S (length r2) - length r1) with (S (length r2)) by lia.
      simpl. rewrite nth_error_app2, Nat.sub_diag; auto. }
    pose proof (P _ _ A1 A2). pose proof (P' _ _ B1 B2). lia.
  Qed.

  (* the segment in which a label lies *)
  Definition seg (l : nat * nat) : nat := nW (firstn (snd l) (prog (fst l))).

  Lemma seg_mono c p q : p <= q -> seg (c, p) <= seg (c, q).
  Proof.
    intros H. unfold seg. simpl.
    replace (firstn p (prog c)) with (firstn p (firstn q (prog c))) by (rewrite firstn_firstn; f_equal; lia).
    rewrite <- (firstn_skipn p (firstn q (prog c))) at 2. rewrite nW_app. lia.
  Qed.

  Lemma run_order_same t s c p q : run t s -> In (c, q) t -> p < q -> before t (c, p) (c, q).
  Proof.
    intros R. revert c p q. induction R as [|t s c s' R IH Hc St]; intros d p q I L; [destruct I|].
    apply in_app_or in I. destruct I as [I|[E|[]]].
    - apply before_app. eauto.
    - inversion E; subst. apply before_last. apply (proj2 (proj2 (run_labels _ _ R) d p)).
      split; auto.
  Qed.

  (* an action in a segment that is known to be finished has been executed *)
  Lemma known_done s c p k d s1 j : good s -> c < n ->
    nth_error (prog c) p = Some (MAct k d s1) -> seg (c, p) = j -> j < nS (done s c) -> p < pos s c.
  Proof.
    intros G Hc Hp Sj Lt. destruct (le_lt_dec (pos s c) p) as [Le|]; auto. exfalso.
    pose proof (prog_ok c Hc) as O.
    rewrite <- (firstn_skipn p (prog c)) in O.
    destruct (okb_split n c _ _ _ O) as (b & Ob & Eb).
    assert (E : skipn p (prog c) = MAct k d s1 :: skipn (S p) (prog c)).
    { clear - Hp. revert p Hp. generalize (prog c). induction l as [|x l IH]; intros [|p] H; simpl in *; try discriminate.
      - now inversion H.
      - now apply IH. }
    rewrite E in Ob. simpl in Ob. destruct Ob as (-> & _).
    unfold seg in Sj. simpl in Sj.
    assert (nS (done s c) <= nS (firstn p (prog c))).
    { unfold done. replace (firstn (pos s c) (prog c)) with (firstn (pos s c) (firstn p (prog c)))
        by (rewrite firstn_firstn; f_equal; lia).
      rewrite <- (firstn_skipn (pos s c) (firstn p (prog c))) at 2. rewrite nS_app. lia. }
    lia.
  Qed.

  Lemma run_order_knows t s c p k dd s1 d q : run t s -> c < n ->
    nth_error (prog c) p = Some (MAct k dd s1) -> In (d, q) t ->
    knows d (seg (d, q)) c (seg (c, p)) -> before t (c, p) (d, q).
  Proof.
    intros R Hc Hp. revert d q. induction R as [|t s a s' R IH Ha St]; intros d q I Kn; [destruct I|].
    apply in_app_or in I. destruct I as [I|[E|[]]].
    - apply before_app. eauto.
    - inversion E; subst. apply before_last. apply (proj2 (run_labels _ _ R)).
      split; auto. pose proof (run_good _ _ R) as G.
      eapply known_done; eauto.
      eapply (g_knows s G d c (seg (d, pos s d))); eauto.
  Qed.

  (* ---- the lock step order ---- *)

  Definition labels (c j : nat) : list (nat * nat) :=
    map (pair c) (filter (fun p => seg (c, p) =? j) (seq 0 (length (prog c)))).
  Definition lock_labels : list (nat * nat) :=
    flat_map (fun j => flat_map (fun c => labels c j) (seq 0 n)) (seq 0 (S K)).

  Lemma in_labels c j l : In l (labels c j) <-> fst l = c /\ snd l < length (prog c) /\ seg l = j.
  Proof.
    unfold labels. rewrite in_map_iff. split.
    - intros (p & <- & I). apply filter_In in I. destruct I as (I & E). apply in_seq in I. simpl.
      apply Nat.eqb_eq in E. repeat split; auto. lia.
    - destruct l as [c' p]. simpl. intros (-> & L & E). exists p. split; auto.
      apply filter_In. split; [apply in_seq; lia|]. now apply Nat.eqb_eq.
  Qed.

  Lemma seg_le_K c p : c < n -> seg (c, p) <= K.
  Proof.
    intros Hc. rewrite <- (prog_K c Hc). unfold seg. simpl.
    rewrite <- (firstn_skipn p (prog c)) at 2. rewrite nW_app. lia.
  Qed.

  Lemma in_lock_labels l : In l lock_labels <-> fst l < n /\ snd l < length (prog (fst l)).
  Proof.
    unfold lock_labels. rewrite in_flat_map. split.
    - intros (j & _ & I). apply in_flat_map in I. destruct I as (c & Ic & I). apply in_labels in I.
      apply in_seq in Ic. destruct I as (-> & L & _). split; auto; lia.
    - intros (Hc & L). exists (seg l). destruct l as [c p]. cbn [fst snd] in *. split.
      + apply in_seq. pose proof (seg_le_K c p Hc). lia.
      + apply in_flat_map. exists c. split; [apply in_seq; lia|]. apply in_labels. auto.
  Qed.

  Definition ordered (a b : nat * nat) : Prop :=
    seg a <= seg b /\ (fst a = fst b -> snd a < snd b).

  Lemma FOP_app {A} (R : A -> A -> Prop) l l' : ForallOrdPairs R l -> ForallOrdPairs R l' ->
    (forall x y, In x l -> In y l' -> R x y) -> ForallOrdPairs R (l ++ l').
  Proof.
    induction 1 as [|a l Ha Hl IH]; simpl; intros H' C; auto.
    constructor.
    - apply Forall_app. split; auto. apply Forall_forall. intros y Iy. apply C; auto.
    - apply IH; auto.
  Qed.

  Lemma FOP_flat_map {A B} (R : B -> B -> Prop) (f : A -> list B) (Q : A -> A -> Prop) l :
    ForallOrdPairs Q l -> (forall a, In a l -> ForallOrdPairs R (f a)) ->
    (forall a b x y, In a l -> In b l -> Q a b -> In x (f a) -> In y (f b) -> R x y) ->
    ForallOrdPairs R (flat_map f l).
  Proof.
    induction 1 as [|a l Ha Hl IH]; simpl; intros H C; [constructor|].
    apply FOP_app; auto.
    - apply IH; auto. intros a' b x y Ia Ib Hq Ix Iy. apply (C a' b); auto.
    - intros x y Ix Iy. apply in_flat_map in Iy. destruct Iy as (b & Ib & Iy).
      rewrite Forall_forall in Ha. apply (C a b); auto.
  Qed.

  Lemma FOP_seq a k : ForallOrdPairs lt (seq a k).
  Proof.
    revert a. induction k as [|k IH]; intros a; simpl; constructor; auto.
    apply Forall_forall. intros x I. apply in_seq in I. lia.
  Qed.

  Lemma FOP_filter {A} (R : A -> A -> Prop) f l : ForallOrdPairs R l -> ForallOrdPairs R (filter f l).
  Proof.
    induction 1 as [|a l Ha Hl IH]; simpl; [constructor|].
    destruct (f a); auto. constructor; auto. rewrite Forall_forall in *. intros x I.
    apply filter_In in I. apply Ha. tauto.
  Qed.

  Lemma FOP_map {A B} (R : B -> B -> Prop) (f : A -> B) l :
    ForallOrdPairs (fun x y => R (f x) (f y)) l -> ForallOrdPairs R (map f l).
  Proof.
    induction 1 as [|a l Ha Hl IH]; simpl; constructor; auto.
    rewrite Forall_forall in *. intros x I. apply in_map_iff in I. destruct I as (y & <- & I). auto.
  Qed.

  Lemma FOP_before {A} (R : A -> A -> Prop) l a b : ForallOrdPairs R l -> before l a b -> R a b.
  Proof.
    intros H (l1 & l2 & l3 & ->). induction l1 as [|x l1 IH]; simpl in H.
    - inversion H; subst. rewrite Forall_forall in H2. apply H2. apply in_or_app. simpl. auto.
    - inversion H; subst. auto.
  Qed.

  Lemma FOP_NoDup {A} (R : A -> A -> Prop) l : (forall x, ~ R x x) -> ForallOrdPairs R l -> NoDup l.
  Proof.
    intros Irr. induction 1 as [|a l Ha Hl IH]; constructor; auto.
    intros I. rewrite Forall_forall in Ha. apply (Irr a). auto.
  Qed.

  Lemma lock_ordered : ForallOrdPairs ordered lock_labels.
  Proof.
    unfold lock_labels. apply FOP_flat_map with (Q := lt).
    - apply FOP_seq.
    - intros j _. apply FOP_flat_map with (Q := lt).
      + apply FOP_seq.
      + intros c _. unfold labels. apply FOP_map.
        assert (F : forall l, ForallOrdPairs lt l -> (forall p, In p l -> seg (c, p) = j) ->
                      ForallOrdPairs (fun x y => ordered (c, x) (c, y)) l).
        { induction 1 as [|a l Ha Hl IH]; intros E; constructor.
          - rewrite Forall_forall in *. intros x I. unfold ordered. simpl.
            rewrite !E by (simpl; auto). split; auto.
          - apply IH. intros; apply E. simpl. auto. }
        apply F.
        * apply FOP_filter, FOP_seq.
        * intros p I. apply filter_In in I. destruct I as (_ & E). now apply Nat.eqb_eq.
      + intros c d x y _ _ L Ix Iy. apply in_labels in Ix. apply in_labels in Iy.
        unfold ordered. split; lia.
    - intros j j' x y _ _ L Ix Iy.
      apply in_flat_map in Ix. destruct Ix as (c & Ic & Ix).
      apply in_flat_map in Iy. destruct Iy as (d & Id & Iy).
      apply in_labels in Ix. apply in_labels in Iy.
      destruct Ix as (Fx & Lx & Sx). destruct Iy as (Fy & Ly & Sy). split; [lia|].
      intros E. destruct x as [cx px], y as [cy py]. simpl in *. subst.
      destruct (le_lt_dec py px) as [Q|]; auto. exfalso.
      subst. pose proof (seg_mono d py px Q). lia.
  Qed.

  (* ---- reordering ---- *)

  Lemma performs_move a t1 : forall m,
    (forall b m', In b t1 -> eqm (perform a (perform b m')) (perform b (perform a m'))) ->
    eqm (perform a (performs t1 m)) (performs t1 (perform a m)).
  Proof.
    induction t1 as [|b t1 IH]; simpl; intros m H; [intros x; reflexivity|].
    intros x. rewrite IH by (intros; apply H; auto).
    apply performs_eqm. apply H. auto.
  Qed.

  Lemma reorder : forall l t m, NoDup t -> Permutation t l ->
    (forall a b, before t a b -> before l b a -> forall m', eqm (perform a (perform b m')) (perform b (perform a m'))) ->
    eqm (performs t m) (performs l m).
  Proof.
    induction l as [|a l IH]; intros t m ND P C.
    - apply Permutation_sym, Permutation_nil in P. subst. intros x. reflexivity.
    - assert (I : In a t) by (eapply Permutation_in; [apply Permutation_sym, P|simpl; auto]).
      apply in_split in I. destruct I as (t1 & t2 & ->).
      assert (P' : Permutation (t1 ++ t2) l).
      { apply Permutation_cons_inv with a. rewrite <- P. apply Permutation_middle. }
      assert (ND' : NoDup (t1 ++ t2)) by (eapply NoDup_remove_1; eauto).
      assert (E1 : eqm (performs (t1 ++ a :: t2) m) (performs (t1 ++ t2) (perform a m))).
      { rewrite !performs_app. simpl. apply performs_eqm. apply performs_move.
        intros b m' Ib y. symmetry.
        assert (Ibl : In b l) by (eapply Permutation_in; [apply P'|apply in_or_app; auto]).
        apply C.
        - apply in_split in Ib. destruct Ib as (u1 & u2 & ->). exists u1, u2, t2.
          rewrite <- app_assoc. reflexivity.
        - apply in_split in Ibl. destruct Ibl as (u1 & u2 & ->). exists [], u1, u2. reflexivity. }
      intros x. rewrite E1. simpl. apply IH; auto.
      intros b d (u1 & u2 & u3 & Eb) (w1 & w2 & w3 & Ed). apply C.
      + (* before t1 ++ t2 implies before t1 ++ a :: t2 *)
        assert (G : forall (v1 v2 : list (nat * nat)) b d z, before (v1 ++ v2) b d -> before (v1 ++ z :: v2) b d).
        { clear. intros v1 v2 b d z (x1 & x2 & x3 & E).
          revert x1 x2 x3 E. induction v1 as [|h v1 IHv]; simpl; intros x1 x2 x3 E.
          - exists (z :: x1), x2, x3. simpl. now rewrite E.
          - destruct x1 as [|h' x1]; simpl in E; inversion E; subst.
            + (* b is h *)
              assert (In d (v1 ++ z :: v2)).
              { assert (In d (v1 ++ v2)) by (rewrite H1; apply in_or_app; simpl; auto).
                apply in_app_or in H. apply in_or_app. simpl. tauto. }
              apply in_split in H. destruct H as (y1 & y2 & H). exists [], y1, y2. simpl. now rewrite H.
            + destruct (IHv x1 x2 x3 H1) as (y1 & y2 & y3 & Q). exists (h' :: y1), y2, y3. simpl. now rewrite Q. }
        apply G. exists u1, u2, u3. auto.
      + exists (a :: w1), w2, w3. simpl. now rewrite Ed.
  Qed.

  (* Actions of different cores that touch the same cell are ordered. *)
  Definition race_free : Prop := forall c d j k k1 d1 s1 k2 d2 s2,
    c < n -> d < n -> c <> d ->
    In (k1, d1, s1) (segm (prog c) j) -> In (k2, d2, s2) (segm (prog d) k) ->
    clash k1 d1 s1 k2 d2 s2 -> knows d k c j \/ knows c j d k.

  Lemma in_segm_pos c p k d s1 : nth_error (prog c) p = Some (MAct k d s1) ->
    In (k, d, s1) (segm (prog c) (seg (c, p))).
  Proof.
    intros H. unfold seg. simpl. destruct (nth_error_split _ _ H) as (l1 & l2 & E & L).
    rewrite E at 1. replace (firstn p (prog c)) with l1.
    - apply segm_at.
    - rewrite E, <- L. rewrite firstn_app, firstn_all, Nat.sub_diag. simpl. now rewrite app_nil_r.
  Qed.

  Lemma effect_commute c k1 d1 s1 d k2 d2 s2 m : ~ clash k1 d1 s1 k2 d2 s2 ->
    eqm (effect op send c k1 d1 s1 (effect op send d k2 d2 s2 m))
        (effect op send d k2 d2 s2 (effect op send c k1 d1 s1 m)).
  Proof.
    unfold clash. intros N x.
    assert (N1 : d1 <> d2) by tauto.
    assert (N2 : forall a, s2 = Shm a -> a <> d1) by (intros a -> ->; tauto).
    assert (N3 : forall a, s1 = Shm a -> a <> d2) by (intros a -> ->; tauto).
    unfold effect, upd.
    destruct s1 as [a1|a1], s2 as [a2|a2]; try (specialize (N2 a2 eq_refl)); try (specialize (N3 a1 eq_refl));
      destruct k1, k2;
      repeat match goal with |- context [Z.eq_dec ?u ?v] => destruct (Z.eq_dec u v); try congruence end; auto.
  Qed.

  Lemma lock_step t s : race_free -> run t s -> complete s -> eqm (mem s) (performs lock_labels m0).
  Proof.
    intros RF R C. rewrite (run_mem t s R).
    pose proof (run_labels t s R) as (ND & I).
    assert (P : Permutation t lock_labels).
    { apply NoDup_Permutation; auto.
      - eapply FOP_NoDup; [|apply lock_ordered]. intros x (_ & H). specialize (H eq_refl). lia.
      - intros [c p]. rewrite I, in_lock_labels. simpl. unfold pos.
        split; intros (Hc & L); split; auto; rewrite C in * by auto; simpl in *; lia. }
    apply reorder; auto.
    intros [c p] [d q] B B' m'.
    pose proof (FOP_before _ _ _ _ lock_ordered B') as (O1 & O2). simpl in O2.
    assert (Ia : In (c, p) t) by (destruct B as (l1 & l2 & l3 & ->); apply in_or_app; simpl; auto).
    assert (Ib : In (d, q) t).
    { destruct B as (l1 & l2 & l3 & ->). apply in_or_app. simpl. right. right. apply in_or_app. simpl. auto. }
    assert (Hc : c < n) by (apply I in Ia; tauto).
    assert (Hd : d < n) by (apply I in Ib; tauto).
    unfold perform. simpl.
    destruct (nth_error (prog c) p) as [[e|e|k1 d1 s1]|] eqn:E1; try (intros x; reflexivity).
    destruct (nth_error (prog d) q) as [[e|e|k2 d2 s2]|] eqn:E2; try (intros x; reflexivity).
    apply effect_commute. intros Cl.
    destruct (Nat.eq_dec c d) as [->|Ne].
    - specialize (O2 eq_refl). pose proof (run_order_same t s d q p R Ia O2).
      eapply before_asym; eauto.
    - destruct (RF c d (seg (c, p)) (seg (d, q)) k1 d1 s1 k2 d2 s2 Hc Hd Ne
                  (in_segm_pos _ _ _ _ _ E1) (in_segm_pos _ _ _ _ _ E2) Cl) as [Kn|Kn].
      + apply knows_lt in Kn. lia.
      + pose proof (run_order_knows t s d q k2 d2 s2 c p R Hd E2 Ia Kn). eapply before_asym; eauto.
  Qed.

  (* ---- the lock step execution in terms of the segments ---- *)

  Definition segment (c : nat) (l : list (kind * Z * operand)) (m : Z -> V) : Z -> V :=
    fold_left (fun m a => effect op send c (fst (fst a)) (snd (fst a)) (snd a) m) l m.
  Definition phase (j : nat) (m : Z -> V) : Z -> V :=
    fold_left (fun m c => segment c (segm (prog c) j) m) (seq 0 n) m.
  Definition lock (m : Z -> V) : Z -> V :=
    fold_left (fun m j => phase j m) (seq 0 (S K)) m.

  Lemma performs_labels c j : forall l pre m, prog c = pre ++ l ->
    performs (map (pair c) (filter (fun p => seg (c, p) =? j) (seq (length pre) (length l)))) m =
    segment c (if nW pre <=? j then segm l (j - nW pre) else []) m.
  Proof.
    induction l as [|x l IH]; intros pre m E.
    - simpl. destruct (nW pre <=? j); reflexivity.
    - cbn [length seq filter].
      assert (Sg : seg (c, length pre) = nW pre).
      { unfold seg. simpl. rewrite E, firstn_app, firstn_all, Nat.sub_diag. simpl. now rewrite app_nil_r. }
      assert (Nx : nth_error (prog c) (length pre) = Some x).
      { rewrite E, nth_error_app2, Nat.sub_diag; auto. }
      specialize (IH (pre ++ [x])). rewrite app_length in IH. simpl in IH. rewrite Nat.add_1_r in IH.
      specialize (fun m => IH m ltac:(rewrite <- app_assoc; exact E)).
      rewrite Sg.
      destruct (nW pre =? j) eqn:Q; cbn [map performs fold_left].
      + apply Nat.eqb_eq in Q. subst j. rewrite Nat.leb_refl, Nat.sub_diag.
        fold (performs (map (pair c) (filter (fun p => seg (c, p) =? nW pre) (seq (S (length pre)) (length l))))
                (perform (c, length pre) m)).
        rewrite IH. unfold perform. simpl fst. simpl snd. rewrite Nx.
        assert (NX : nW (pre ++ [x]) = nW pre + match x with MWait _ => 1 | _ => 0 end).
        { rewrite nW_app. destruct x; reflexivity. }
        rewrite NX. destruct x as [e|e|k d s1].
        * rewrite Nat.add_0_r, Nat.leb_refl, Nat.sub_diag. reflexivity.
        * rewrite (proj2 (Nat.leb_gt _ _)) by lia. reflexivity.
        * rewrite Nat.add_0_r, Nat.leb_refl, Nat.sub_diag. reflexivity.
      + apply Nat.eqb_neq in Q. fold (performs (map (pair c) (filter (fun p => seg (c, p) =? j) (seq (S (length pre)) (length l)))) m).
        rewrite IH.
        assert (NX : nW (pre ++ [x]) = nW pre + match x with MWait _ => 1 | _ => 0 end).
        { rewrite nW_app. destruct x; reflexivity. }
        rewrite NX.
        destruct (nW pre <=? j) eqn:Q1.
        * apply Nat.leb_le in Q1.
          destruct x as [e|e|k d s1].
          -- rewrite Nat.add_0_r, (proj2 (Nat.leb_le _ _)) by lia. reflexivity.
          -- rewrite (proj2 (Nat.leb_le _ _)) by lia. simpl.
             destruct (j - nW pre) as [|i] eqn:Ei; [lia|].
             replace (j - (nW pre + 1)) with i by lia. reflexivity.
          -- rewrite Nat.add_0_r, (proj2 (Nat.leb_le _ _)) by lia. simpl.
             destruct (j - nW pre) as [|i] eqn:Ei; [lia|]. reflexivity.
        * apply Nat.leb_gt in Q1. rewrite (proj2 (Nat.leb_gt _ _)) by lia. reflexivity.
  Qed.

  Lemma performs_flat_map {A} (f : A -> list (nat * nat)) l : forall m,
    performs (flat_map f l) m = fold_left (fun m a => performs (f a) m) l m.
  Proof. induction l as [|a l IH]; simpl; intros m; auto. rewrite performs_app. apply IH. Qed.

  Lemma lock_labels_lock m : performs lock_labels m = lock m.
  Proof.
    unfold lock_labels, lock. rewrite performs_flat_map.
    assert (F : forall A (f g : (Z -> V) -> A -> (Z -> V)) l m, (forall m a, f m a = g m a) ->
              fold_left f l m = fold_left g l m).
    { clear. intros A f g l. induction l as [|a l IH]; simpl; intros m H; auto. rewrite H. auto. }
    apply F. clear m. intros m j. rewrite performs_flat_map. unfold phase. apply F. clear m. intros m c.
    pose proof (performs_labels c j (prog c) [] m eq_refl) as Q. cbn [length] in Q.
    unfold labels. etransitivity; [exact Q|]. change (nW []) with 0. simpl Nat.leb. cbv iota.
    now rewrite Nat.sub_0_r.
  Qed.

  Theorem lockstep_complete t s : race_free -> run t s -> complete s -> forall x, mem s x = lock m0 x.
  Proof. intros RF R C x. rewrite <- lock_labels_lock. eapply lock_step; eauto. Qed.

  Lemma performs_unwritten t : forall m x,
    (forall c p k d s1, In (c, p) t -> nth_error (prog c) p = Some (MAct k d s1) -> d <> x) ->
    performs t m x = m x.
  Proof.
    induction t as [|[c p] t IH]; simpl; intros m x H; auto.
    rewrite IH by (intros; eapply H; eauto).
    unfold perform. simpl. destruct (nth_error (prog c) p) as [[e|e|k d s1]|] eqn:E; auto.
    unfold effect. apply upd_other. intros ->. eapply (H c p k d s1); eauto.
  Qed.

  (* A core that has come to its end sees the final value of every cell all
     writers of which it knows to be done. *)
  Theorem final_value t s c x : race_free -> run t s -> c < n -> rest s c = [] ->
    (forall d j k dd s1, d < n -> d <> c -> In (k, dd, s1) (segm (prog d) j) -> dd = x -> knows c K d j) ->
    mem s x = lock m0 x.
  Proof.
    intros RF R Hc Er W.
    destruct (can_complete (todo s) t s (le_n _) R) as (t' & s' & R' & C).
    rewrite <- (lockstep_complete _ _ RF R' C).
    rewrite (run_mem _ _ R'), performs_app, <- (run_mem _ _ R).
    symmetry. apply performs_unwritten. intros d p k dd s1 I E ->.
    pose proof (run_labels _ _ R') as (ND & I').
    pose proof (run_labels _ _ R) as (_ & It).
    pose proof (run_good _ _ R) as G.
    assert (Hd : d < n). { apply (I' d p). apply in_or_app. auto. }
    assert (p < pos s d).
    { destruct (Nat.eq_dec d c) as [->|Ne].
      - unfold pos. rewrite Er. simpl. 
        assert (p < length (prog c)) by (apply nth_error_Some; congruence). lia.
      - eapply known_done; eauto.
        apply (g_knows s G c d K); auto.
        + assert (nW (done s c) = K).
          { rewrite <- (prog_K c Hc). pose proof (g_split s G c Hc) as Q. rewrite Er, app_nil_r in Q.
            now rewrite <- Q. }
          lia.
        + eapply W; eauto. apply in_segm_pos; eauto. }
    assert (In (d, p) t) by (apply It; auto).
    clear - ND I H0. induction t as [|a t IH]; [destruct H0|].
    simpl in ND. inversion ND as [|? ? Na ND']; subst. destruct H0 as [->|H0]; auto.
    apply Na. apply in_or_app. auto.
  Qed.
End Sync.
