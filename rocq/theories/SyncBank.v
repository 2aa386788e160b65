(* Executions with several sets of flags and counters behave like executions with one. *)
From Verif Require Import Base BarrierModel NodeModel SyncProofs SingleModel.
Local Ltac Zify.zify_post_hook ::= idtac.
Local Open Scope nat_scope.

Definition tmicro := (nat * micro)%type.

Fixpoint okt (n own : nat) (b : option nat) (l : list tmicro) : Prop :=
  match l with
  | [] => b = None
  | (h, MSet e) :: p => b = None /\ e = Z.of_nat own /\ okt n own (Some h) p
  | (h, MWait e) :: p => b = Some h /\ (exists x, x < n /\ e = Z.of_nat x) /\ okt n own None p
  | (h, MAct _ _ _) :: p => b = None /\ okt n own None p
  end.

Definition wtags (l : list tmicro) : list nat :=
  flat_map (fun x => match snd x with MWait _ => [fst x] | _ => [] end) l.
Definition stags (l : list tmicro) : list nat :=
  flat_map (fun x => match snd x with MSet _ => [fst x] | _ => [] end) l.

Lemma wtags_app a b : wtags (a ++ b) = wtags a ++ wtags b.
Proof. apply flat_map_app. Qed.
Lemma stags_app a b : stags (a ++ b) = stags a ++ stags b.
Proof. apply flat_map_app. Qed.
Lemma wtags_length l : length (wtags l) = nW (map snd l).
Proof. induction l as [|[h [e|e|k d s]] l IH]; simpl; auto. unfold nW in *. simpl. lia. Qed.
Lemma stags_length l : length (stags l) = nS (map snd l).
Proof. induction l as [|[h [e|e|k d s]] l IH]; simpl; auto. unfold nS in *. simpl. lia. Qed.

Lemma okt_app n own p : forall b q, okt n own b p -> okt n own None q -> okt n own b (p ++ q).
Proof. induction p as [|[h [e|e|k d s]] p IH]; simpl; intros b q H Hq; [now subst|intuition..]. Qed.

Lemma okt_okb n own l : forall b, okt n own b l -> okb n own (match b with Some _ => true | None => false end) (map snd l).
Proof.
  induction l as [|[h [e|e|k d s]] l IH]; simpl; intros b H.
  - now subst.
  - destruct H as (-> & -> & H). repeat split. apply (IH _ H).
  - destruct H as (-> & Hx & H). split; [|split]; auto. apply (IH _ H).
  - destruct H as (-> & H). split; auto. apply (IH _ H).
Qed.

Lemma okt_tags n own l : forall b, okt n own b l ->
  match b with Some h => h :: stags l | None => stags l end = wtags l.
Proof.
  induction l as [|[h [e|e|k d s]] l IH]; simpl; intros b H.
  - now subst.
  - destruct H as (-> & _ & H). apply (IH _ H).
  - destruct H as (-> & _ & H). f_equal. apply (IH _ H).
  - destruct H as (-> & H). apply (IH _ H).
Qed.

Lemma okt_split n own p : forall b q, okt n own b (p ++ q) -> exists b', okt n own b' q /\
  match b with Some h => h :: stags p | None => stags p end = wtags p ++ match b' with Some h => [h] | None => [] end.
Proof.
  induction p as [|[h [e|e|k d s]] p IH]; simpl; intros b q H.
  - exists b. split; [auto|now destruct b].
  - destruct H as (-> & _ & H). apply (IH _ _ H).
  - destruct H as (-> & _ & H). destruct (IH _ _ H) as (b' & Hq & E). exists b'. split; auto. simpl. now f_equal.
  - destruct H as (-> & H). apply (IH _ _ H).
Qed.

Definition cnt (l : list nat) (h : nat) : nat := count_occ Nat.eq_dec l h.
Lemma cnt_app a b h : cnt (a ++ b) h = cnt a h + cnt b h.
Proof. apply count_occ_app. Qed.
Lemma cnt_le l h : cnt l h <= length l.
Proof. apply count_occ_bound. Qed.

Section Bank.
  Context (n : nat) (bprog : nat -> list tmicro) (prog : nat -> list micro) (T : list nat).
  Hypothesis same : forall c, c < n -> map snd (bprog c) = prog c.
  Let K := length T.
  Hypothesis ok : forall c, c < n -> okt n c None (bprog c).
  Hypothesis tags : forall c, c < n -> wtags (bprog c) = T.
  Hypothesis close : near n prog K.
  Context {V : Type} (op : V -> V -> V) (send : nat -> Z -> V) (c0 : nat -> Z) (m0 : Z -> V).

  Lemma b_ok c : c < n -> okb n c false (prog c).
  Proof using ok same. intros Hc. rewrite <- same by auto. exact (okt_okb n c (bprog c) None (ok c Hc)). Qed.
  Lemma b_K c : c < n -> nW (prog c) = K.
  Proof using tags same. intros Hc. unfold K. now rewrite <- same, <- wtags_length, tags. Qed.

  Definition nst : @nstate V := NS prog (fun _ => wrap 0) (fun _ => wrap (0 - 1)) m0.

  Record sim (b : @bstate V) (s : @nstate V) : Prop := {
    si_rest : forall c, c < n -> rest s c = map snd (brest b c);
    si_mem : mem s = bmem b;
    si_count : forall c, c < n -> exists bd, bprog c = bd ++ brest b c /\
      (forall h, bcounter b h c = wrap (c0 h + Z.of_nat (cnt (wtags bd) h))) /\
      (forall h, bflags b h (Z.of_nat c) = wrap (c0 h + Z.of_nat (cnt (stags bd) h) - 1)) }.

  Lemma sim_start : sim (bstart bprog c0 m0) nst.
  Proof.
    split; auto.
    { intros c Hc. symmetry. now apply same. }
    intros c Hc. exists []. repeat split; intros h; simpl; f_equal; lia.
  Qed.

  Lemma done_of (s : @nstate V) c bd br : c < n -> rest s c = map snd br -> bprog c = bd ++ br -> done prog s c = map snd bd.
  Proof.
    intros Hc E Eb. unfold done, pos. rewrite E, <- same by auto. rewrite Eb, map_app, app_length.
    rewrite Nat.add_sub. rewrite firstn_app, Nat.sub_diag, firstn_all. simpl. now rewrite app_nil_r.
  Qed.

  (* stags and wtags of executed parts are prefixes of T *)
  Lemma tags_prefix c bd br : c < n -> bprog c = bd ++ br ->
    wtags bd = firstn (nW (map snd bd)) T /\ stags bd = firstn (nS (map snd bd)) T.
  Proof using ok tags.
    intros Hc E. rewrite <- wtags_length, <- stags_length, <- (tags c Hc).
    pose proof (okt_tags _ _ _ _ (ok c Hc)) as Q. simpl in Q.
    split.
    - rewrite E, wtags_app. rewrite firstn_app, Nat.sub_diag, firstn_all. simpl. now rewrite app_nil_r.
    - rewrite <- Q, E, stags_app. rewrite firstn_app, Nat.sub_diag, firstn_all. simpl. now rewrite app_nil_r.
  Qed.

  Lemma cnt_prefix a b h : a <= b -> cnt (firstn b T) h = cnt (firstn a T) h + cnt (firstn (b - a) (skipn a T)) h.
  Proof.
    intros L. rewrite <- cnt_app. f_equal.
    rewrite <- (firstn_skipn a (firstn b T)). rewrite firstn_firstn, Nat.min_l by auto. f_equal.
    now rewrite skipn_firstn_comm.
  Qed.

  (* a wait passes with the flags of its own set exactly when it does with one set *)
  Lemma wait_same b s c h e p : sim b s -> good n prog 0 s -> c < n ->
    brest b c = (h, MWait e) :: p ->
    not_reached (bflags b h e) (bcounter b h c) = not_reached (flags s e) (counter s c).
  Proof using All.
    intros Si G Hc Eb.
    assert (Er : rest s c = MWait e :: map snd p) by (rewrite (si_rest b s Si c Hc), Eb; reflexivity).
    destruct (wait_passes n prog K b_ok b_K close op send 0 s c e _ G Hc Er) as (x & Hx & Ee & _ & ->).
    subst e.
    destruct (si_count b s Si c Hc) as (dc & Ec & Cc & _).
    destruct (si_count b s Si x Hx) as (dx & Ex & _ & Fx).
    assert (Dc : done prog s c = map snd dc) by (eapply done_of; eauto using si_rest).
    assert (Dx : done prog s x = map snd dx) by (eapply done_of; eauto using si_rest).
    rewrite Cc, Fx.
    destruct (tags_prefix c dc _ Hc Ec) as (Wc & Sc). destruct (tags_prefix x dx _ Hx Ex) as (_ & Sx).
    pose proof (ok c Hc) as O. rewrite Ec in O. destruct (okt_split _ _ _ _ _ O) as (b' & O' & Q).
    rewrite Eb in O'. simpl in O'. destruct O' as (-> & _ & _).
    assert (E1 : nS (done prog s c) = nW (done prog s c) + 1).
    { rewrite Dc, <- stags_length, <- wtags_length, Q, app_length. reflexivity. }
    pose proof (wait_range n prog K b_ok b_K close op send 0 s c x G Hc Hx E1) as Rg.
    rewrite Dc, Dx in *. set (a := nS (map snd dx)) in *. set (w := nW (map snd dc)) in *.
    rewrite Wc, Sx.
    assert (Th : firstn (S w) T = firstn w T ++ [h]).
    { rewrite <- Wc, <- Q, Sc. f_equal. lia. }
    assert (Ch : cnt (firstn (S w) T) h = cnt (firstn w T) h + 1).
    { rewrite Th, cnt_app. f_equal. unfold cnt. simpl. destruct (Nat.eq_dec h h); congruence. }
    rewrite (reached_iff n prog K b_ok b_K op send).
    - destruct (le_lt_dec a w) as [L|L].
      + rewrite (proj2 (Nat.leb_le _ _)) by auto. apply Z.ltb_lt. rewrite (cnt_prefix a w h L). lia.
      + rewrite (proj2 (Nat.leb_gt _ _)) by auto. apply Z.ltb_ge. rewrite (cnt_prefix (S w) a h L). lia.
    - destruct (le_lt_dec a w) as [L|L].
      + pose proof (cnt_prefix a w h L).
        pose proof (cnt_le (firstn (w - a) (skipn a T)) h). rewrite firstn_length in *. lia.
      + pose proof (cnt_prefix (S w) a h L).
        pose proof (cnt_le (firstn (a - S w) (skipn (S w) T)) h). rewrite firstn_length in *. lia.
  Qed.

  Lemma sim_rest_step b s c p : sim b s -> forall d, d < n ->
    upd Nat.eq_dec (rest s) c (map snd p) d = map snd (upd Nat.eq_dec (brest b) c p d).
  Proof.
    intros Si d Hd. destruct (Nat.eq_dec d c) as [->|Ne].
    - now rewrite !upd_same.
    - rewrite !upd_other by auto. now apply si_rest.
  Qed.

  Lemma cnt_one h h' : cnt [h] h' = if Nat.eq_dec h' h then 1 else 0.
  Proof. unfold cnt. simpl. destruct (Nat.eq_dec h h'), (Nat.eq_dec h' h); congruence. Qed.

  (* both can do the same steps *)
  Lemma sim_step b s c : sim b s -> good n prog 0 s -> c < n ->
    match bstep op send b c, nstep op send s c with
    | Some b', Some s' => sim b' s'
    | None, None => True
    | _, _ => False
    end.
  Proof using All.
    intros Si G Hc. unfold bstep, nstep. rewrite (si_rest b s Si c Hc).
    destruct (brest b c) as [|[h [e|e|k d src]] p] eqn:Eb; simpl; auto.
    - (* set *)
      pose proof (ok c Hc) as O. destruct (si_count b s Si c Hc) as (dc & Ec & Cc & Fc).
      pose proof O as O0. rewrite Ec in O0. destruct (okt_split _ _ _ _ _ O0) as (b' & O' & Q).
      rewrite Eb in O'. simpl in O'. destruct O' as (-> & -> & _). rewrite app_nil_r in Q.
      split; simpl.
      + now apply sim_rest_step.
      + apply si_mem; auto.
      + intros d Hd. unfold set_at. destruct (Nat.eq_dec d c) as [->|Ne].
        * exists (dc ++ [(h, MSet (Z.of_nat c))]). rewrite upd_same, <- app_assoc. simpl. rewrite <- Eb.
          split; auto. rewrite wtags_app, stags_app. simpl. rewrite app_nil_r. split; auto.
          intros h'. rewrite cnt_app, cnt_one. destruct (Nat.eq_dec h' h) as [->|Nh].
          -- rewrite !upd_same, Cc, Q. f_equal. lia.
          -- rewrite upd_other by auto. rewrite Fc. f_equal. lia.
        * destruct (si_count b s Si d Hd) as (dd & Ed & Cd & Fd). exists dd.
          rewrite upd_other by auto. split; auto. split; auto. intros h'.
          destruct (Nat.eq_dec h' h) as [->|Nh].
          -- rewrite upd_same, upd_other by lia. apply Fd.
          -- rewrite upd_other by auto. apply Fd.
    - (* wait *)
      rewrite <- (wait_same b s c h e p Si G Hc Eb).
      destruct (not_reached (bflags b h e) (bcounter b h c)); auto.
      split; simpl.
      + now apply sim_rest_step.
      + apply si_mem; auto.
      + intros d Hd. unfold set_at.
        destruct (si_count b s Si d Hd) as (dd & Ed & Cd & Fd).
        destruct (Nat.eq_dec d c) as [->|Ne].
        * exists (dd ++ [(h, MWait e)]). rewrite upd_same, <- app_assoc. simpl. rewrite <- Eb.
          split; auto. rewrite wtags_app, stags_app. simpl. rewrite app_nil_r. split; auto.
          intros h'. rewrite cnt_app, cnt_one. destruct (Nat.eq_dec h' h) as [->|Nh].
          -- rewrite !upd_same, Cd, wrap_wrap_add. f_equal. lia.
          -- rewrite upd_other by auto. rewrite Cd. f_equal. lia.
        * exists dd. rewrite upd_other by auto. split; auto. split; auto. intros h'.
          destruct (Nat.eq_dec h' h) as [->|Nh].
          -- rewrite upd_same, upd_other by auto. apply Cd.
          -- rewrite upd_other by auto. apply Cd.
    - split; simpl.
      + now apply sim_rest_step.
      + now rewrite (si_mem b s Si).
      + intros d' Hd. destruct (si_count b s Si d' Hd) as (dd & Ed & Cd & Fd).
        destruct (Nat.eq_dec d' c) as [->|Ne].
        * exists (dd ++ [(h, MAct k d src)]). rewrite upd_same, <- app_assoc. simpl. rewrite <- Eb.
          split; auto. rewrite wtags_app, stags_app. simpl. rewrite !app_nil_r. auto.
        * exists dd. rewrite upd_other by auto. auto.
  Qed.

  Theorem bank_run b : breach op send n (bstart bprog c0 m0) b ->
    exists t s, run n prog op send 0 m0 t s /\ sim b s.
  Proof using All.
    induction 1 as [|b c b' R (t & s & Rs & Si) Hc St].
    - exists [], nst. split; [constructor|apply sim_start].
    - pose proof (run_good n prog K b_ok b_K close op send 0 m0 t s Rs) as G.
      pose proof (sim_step b s c Si G Hc) as Q. rewrite St in Q.
      destruct (nstep op send s c) as [s'|] eqn:E; [|destruct Q].
      eexists _, s'. split; [eapply run_step; eauto|exact Q].
  Qed.

  Theorem bank_progress b : breach op send n (bstart bprog c0 m0) b ->
    (forall c, c < n -> brest b c = []) \/ exists c b', c < n /\ bstep op send b c = Some b'.
  Proof using All.
    intros R. destruct (bank_run b R) as (t & s & Rs & Si).
    pose proof (run_good n prog K b_ok b_K close op send 0 m0 t s Rs) as G.
    destruct (existsb (fun c => match brest b c with [] => false | _ => true end) (seq 0 n)) eqn:Q.
    - right. apply existsb_exists in Q. destruct Q as (c & I & Q). apply in_seq in I.
      destruct (progress n prog K b_ok b_K close op send 0 m0 t s Rs) as (d & s' & Hd & St).
      + exists c. split; [lia|]. rewrite (si_rest b s Si) by lia. destruct (brest b c); simpl; congruence.
      + pose proof (sim_step b s d Si G Hd) as P. rewrite St in P.
        destruct (bstep op send b d) as [b'|] eqn:E; [|destruct P]. exists d, b'. auto.
    - left. intros c Hc. destruct (brest b c) eqn:E; auto. exfalso.
      assert (existsb (fun c => match brest b c with [] => false | _ => true end) (seq 0 n) = true).
      { apply existsb_exists. exists c. split; [apply in_seq; lia|]. now rewrite E. }
      congruence.
  Qed.

  (* A cell only core c writes to, and that it will not write to any more, has its
     final value. *)
  Theorem settled b c x : race_free n prog -> breach op send n (bstart bprog c0 m0) b -> c < n ->
    (forall d k s1, d < n -> In (MAct k x s1) (prog d) -> d = c) ->
    (forall h k s1, ~ In (h, MAct k x s1) (brest b c)) ->
    bmem b x = lock n prog K op send m0 x.
  Proof using All.
    intros RF R Hc W Nr. destruct (bank_run b R) as (t & s & Rs & Si).
    destruct (can_complete n prog K b_ok b_K close op send 0 m0 (todo n s) t s (le_n _) Rs) as (t' & s' & R' & C).
    rewrite <- (lockstep_complete n prog K b_ok b_K close op send 0 m0 _ _ RF R' C).
    rewrite (run_mem n prog K b_ok b_K close op send 0 m0 _ _ R'), performs_app.
    rewrite <- (run_mem n prog K b_ok b_K close op send 0 m0 _ _ Rs), (si_mem b s Si).
    symmetry. apply performs_unwritten. intros d p k dd s1 I E ->.
    pose proof (run_labels n prog K b_ok b_K close op send 0 m0 _ _ R') as (ND & I').
    pose proof (run_labels n prog K b_ok b_K close op send 0 m0 _ _ Rs) as (_ & It).
    pose proof (run_good n prog K b_ok b_K close op send 0 m0 _ _ Rs) as G.
    assert (Hd : d < n). { apply (I' d p). apply in_or_app. auto. }
    assert (d = c) by (eapply W; eauto using nth_error_In). subst d.
    assert (Np : ~ p < pos prog s c).
    { intros L. assert (In (c, p) t) by (apply It; auto).
      clear - ND I H. induction t as [|a t IH]; [destruct H|].
      simpl in ND. inversion ND as [|? ? Na ND']; subst. destruct H as [->|H]; auto.
      apply Na. apply in_or_app. auto. }
    rewrite (g_split n prog 0 s G c Hc) in E. rewrite nth_error_app2 in E by (unfold done; rewrite firstn_length; lia).
    apply nth_error_In in E. rewrite (si_rest b s Si c Hc) in E. apply in_map_iff in E.
    destruct E as ([h y] & Ey & Iy). simpl in Ey. subst y. exact (Nr _ _ _ Iy).
  Qed.
End Bank.
