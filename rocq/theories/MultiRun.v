(* What the simulation gives for whole runs. *)
From Verif Require Import Base SchedModel RawModel RawSpec RawRepeat MultiModel MultiSpec MultiSim.
Local Ltac Zify.zify_post_hook ::= idtac.

Section Run.
  Context {V : Type} (op : V -> V -> V) (N c : nat) (Hc : 0 < c).
  Notation reach := (reach op N).
  Notation related := (@related V N c).

  (* ---------- a cluster that cannot go on ---------- *)
  Definition movable (k : core) : bool :=
    match ccode k with
    | [] | Barrier :: _ => false
    | Waitall :: _ => match csending k, creceiving k with [], [] => true | _, _ => false end
    | _ :: _ => true
    end.
  Lemma movable_step s p r : p < N -> r < c -> movable (cores s (p * c + r)) = true -> exists t, cstep op N c s t.
  Proof.
    intros Hp Hr M. unfold movable in M. destruct (ccode (cores s (p * c + r))) as [|i rest] eqn:E; [discriminate|].
    assert (X : exists x, exec_instr op i rest (Process (i :: rest) (nmem s p) (csending (cores s (p * c + r))) (creceiving (cores s (p * c + r)))) = Some x).
    { destruct i; try (eexists; reflexivity). cbn.
      destruct (csending _); [|discriminate]. destruct (creceiving _); [|discriminate]. eexists; reflexivity. }
    destruct X as [x X]. eexists. eapply CExec; eauto. intros ->. discriminate.
  Qed.
  Definition gathered (s : @cluster V) (p : nat) : bool :=
    forallb (fun r => match ccode (cores s (p * c + r)) with Barrier :: _ => true | _ => false end) (seq 0 c).
  Lemma gathered_all s p : gathered s p = true <-> forall r, r < c -> hd_error (ccode (cores s (p * c + r))) = Some Barrier.
  Proof.
    unfold gathered. rewrite forallb_forall. split; intros A r Hr.
    - specialize (A r ltac:(apply in_seq; lia)). destruct (ccode _) as [|[] ?]; try discriminate. reflexivity.
    - apply in_seq in Hr. specialize (A r ltac:(lia)). destruct (ccode _) as [|[] ?]; try discriminate. reflexivity.
  Qed.
  Lemma gathered_step s p : p < N -> gathered s p = true -> exists t, cstep op N c s t.
  Proof. intros Hp G. eexists. apply (CBarrier op N c s p); auto. now apply gathered_all. Qed.

  Lemma at_rest r n h k : core_ok c r n h k -> movable k = false -> Forall is_local (gL n) ->
    hP h = [] /\ (r = 0 -> gL n = []) /\ of_core r (gS n) = hS h /\ of_core r (gR n) = hR h /\
    (gW n = false \/ (hD h = false -> hS h <> [] \/ hR h <> [])) /\
    (hD h = true \/ gW n = false -> ccode k = later_core c r (gK n)).
  Proof.
    intros (E & E2 & E3 & E4 & E5 & E6) M F. unfold movable in M. rewrite E in M.
    assert (P : hP h = []).
    { destruct (hD h); [now apply E6|]. destruct (hP h) as [|x l]; [reflexivity|]. cbn in M. unfold post_core in M. destruct (is_recv x); discriminate. }
    rewrite P in *. cbn in E4, E5. rewrite app_nil_r in E4, E5. split; [reflexivity|].
    assert (L : r = 0 -> gL n = []).
    { intros ->. destruct (hD h); [now apply E6|]. cbn in M. destruct (gL n) as [|i l]; [reflexivity|]. inversion F; subst.
      cbn in M. destruct i; try contradiction; discriminate. }
    assert (LL : (if r =? 0 then gL n else []) = []) by (destruct (Nat.eqb_spec r 0); auto).
    rewrite LL in *. split; [exact L|]. split; [exact E4|]. split; [exact E5|]. split.
    - destruct (gW n); [right|now left]. intros D. rewrite D in M. cbn in M. rewrite E2, E3 in M.
      destruct (hS h); [|left; discriminate]. destruct (hR h); [discriminate|right; discriminate].
    - intros [D|W]; rewrite E; [now rewrite D|]. rewrite W. now destruct (hD h).
  Qed.

  Lemma progress s a : related s a -> ((forall p, p < N -> finished a p) \/ exists b, step op N a b) ->
    (forall k, k < N * c -> cfinished s k) \/ exists t, cstep op N c s t.
  Proof.
    intros (G & H & C & A1 & A2 & A3 & A4) Pa.
    destruct (existsb (fun k => movable (cores s k)) (seq 0 (N * c))) eqn:X.
    { right. apply existsb_exists in X. destruct X as (k & I & M). apply in_seq in I.
      destruct (rank_split c N k Hc ltac:(lia)) as (p & r & Hp & Hr & ->). eapply movable_step; eauto. }
    destruct (existsb (gathered s) (seq 0 N)) eqn:Y.
    { right. apply existsb_exists in Y. destruct Y as (p & I & M). apply in_seq in I. apply (gathered_step s p); auto. lia. }
    assert (NM : forall p r, p < N -> r < c -> movable (cores s (p * c + r)) = false).
    { intros p r Hp Hr. destruct (movable _) eqn:M; [|reflexivity]. rewrite <- X. symmetry. apply existsb_exists.
      exists (p * c + r). split; [|exact M]. apply in_seq. pose proof (rank_lt c N p r Hp Hr). lia. }
    assert (NG : forall p, p < N -> gathered s p = false).
    { intros p Hp. destruct (gathered s p) eqn:M; [|reflexivity]. rewrite <- Y. symmetry. apply existsb_exists.
      exists p. split; [|exact M]. apply in_seq. lia. }
    clear X Y.
    assert (AR : forall p r, p < N -> r < c -> _) by (intros p r Hp Hr; exact (at_rest r (G p) (H p r) _ (A2 p r Hp Hr) (NM p r Hp Hr) ltac:(apply A1; auto))).
    destruct Pa as [Fa|[b St]].
    { left. intros k Hk. destruct (rank_split c N k Hc Hk) as (p & r & Hp & Hr & ->).
      destruct (AR p r Hp Hr) as (_ & _ & _ & _ & _ & E). destruct (A1 p Hp) as (N1 & _). specialize (Fa p Hp). red in Fa. rewrite Fa in N1.
      symmetry in N1. apply app_eq_nil in N1. destruct N1 as [_ N1]. apply app_eq_nil in N1. destruct N1 as [W K].
      red. rewrite E; [|right; unfold waits in W; destruct (gW (G p)); [discriminate W|reflexivity]]. destruct (gK (G p)); [reflexivity|discriminate]. }
    right. destruct St as [p i rest x Hp Ec Ex|p q l1 x l2 Hp Hq Es Ep Np|p q l1 x l2 v vs Hp Hq Es Ep Np Ev Lv].
    - exfalso. destruct (A1 p Hp) as (N1 & N2 & N3 & N4 & N5 & N6 & N7 & N8 & N9 & N10 & N11). rewrite Ec in N1.
      destruct (AR p 0 Hp Hc) as (_ & L & _). specialize (L eq_refl). rewrite L in N1. cbn [app] in N1.
      assert (K : gK (G p) <> [] \/ gW (G p) = true).
      { destruct (gW (G p)); [now right|]. left. intros Z. rewrite Z in N1. discriminate. }
      assert (D : forall r, r < c -> hD (H p r) = true \/ gW (G p) = false).
      { intros r Hr. destruct (gW (G p)) eqn:GW; [left|now right]. cbn in N1. injection N1 as -> _. cbn [exec_instr] in Ex.
        destruct (sending (procs a p)) eqn:Z1; [|discriminate]. destruct (receiving (procs a p)) eqn:Z2; [|discriminate].
        destruct (gS (G p)) eqn:Q1; [|discriminate]. destruct (gR (G p)) eqn:Q2; [|discriminate].
        destruct (AR p r Hp Hr) as (_ & _ & H1 & H2 & H3 & _). rewrite Q1 in H1. rewrite Q2 in H2. cbn in H1, H2.
        destruct (hD (H p r)); [reflexivity|]. exfalso. destruct H3 as [?|H3]; [congruence|]. destruct (H3 eq_refl) as [Z|Z]; congruence. }
      assert (KK : gK (G p) <> []).
      { destruct K as [K|K]; [exact K|]. intros Z. destruct (N9 Z). congruence. }
      assert (T : gathered s p = true); [|rewrite NG in T by auto; discriminate].
      apply gathered_all. intros r Hr. destruct (AR p r Hp Hr) as (_ & _ & _ & _ & _ & E). rewrite (E (D r Hr)), later_head.
      destruct (gK (G p)); congruence.
    - destruct (A1 p Hp) as (N1 & N2 & N3 & N4 & N5 & N6 & N7 & N8 & N9 & N10 & N11).
      rewrite Es in N3. symmetry in N3. apply map_split in N3. destruct N3 as (s1 & y & s2 & E & F1 & F2 & F3).
      rewrite E in N10. rewrite Forall_forall in N10. pose proof (N10 y ltac:(apply in_elt)) as [Oy Qy].
      destruct (AR p (own y) Hp Oy) as (_ & _ & S & _). rewrite E, of_core_app in S. unfold of_core at 2 in S. cbn [filter] in S.
      rewrite Nat.eqb_refl in S. destruct (A2 p (own y) Hp Oy) as (_ & E2 & _). rewrite <- S, map_app in E2. cbn [map] in E2.
      eexists. eapply (CDepart op N c s p (own y) (other y * c + own y)); [exact Hp|exact Oy|apply rank_lt; auto|exact E2|reflexivity|].
      rewrite map_map. intros I. apply in_map_iff in I. destruct I as (z & Ez & Iz). cbn in Ez. unfold rank_to in Ez.
      apply filter_In in Iz. destruct Iz as [Iz Oz]. apply Nat.eqb_eq in Oz. rewrite Oz in Ez. apply rank_inj in Ez; auto.
      apply Np. rewrite <- F1, map_map. apply in_map_iff. exists z. split; [|exact Iz]. cbn. destruct Ez as [-> _]. rewrite <- Ep, <- F2. reflexivity.
    - destruct (A1 q Hq) as (N1 & N2 & N3 & N4 & N5 & N6 & N7 & N8 & N9 & N10 & N11).
      rewrite Es in N4. symmetry in N4. apply map_split in N4. destruct N4 as (s1 & y & s2 & E & F1 & F2 & F3).
      rewrite E in N11. rewrite Forall_forall in N11. pose proof (N11 y ltac:(apply in_elt)) as [Oy Qy].
      assert (Py : other y = p) by (rewrite <- Ep, <- F2; reflexivity).
      destruct (AR q (own y) Hq Oy) as (_ & _ & _ & S & _). rewrite E, of_core_app in S. unfold of_core at 2 in S. cbn [filter] in S.
      rewrite Nat.eqb_refl in S. destruct (A2 q (own y) Hq Oy) as (_ & _ & E3 & _). rewrite <- S, map_app in E3. cbn [map] in E3.
      destruct (A3 p q Hp Hq) as [X Y]. rewrite Ev in X. unfold pair_ok in Y. rewrite E, tags_app in Y.
      assert (Z : tags p s1 = []).
      { apply tags_gone. intros I. apply Np. rewrite <- F1, map_map. exact I. }
      rewrite Z in Y. unfold tags at 3 in Y. cbn [filter] in Y. rewrite Py, Nat.eqb_refl in Y. cbn [map app] in Y.
      destruct (C p q) as [|[t u] ch] eqn:EC; [discriminate|]. cbn [map fst snd app] in X, Y. injection X as <- X. injection Y as -> Y.
      eexists. eapply (CArrive op N c s (p * c + own y) q (own y)); [apply rank_lt; auto|exact Hq|exact Oy|exact E3| | | |].
      + cbn. unfold rank_to. now rewrite Py.
      + rewrite map_map. intros I. apply in_map_iff in I. destruct I as (z & Ez & Iz). cbn in Ez. unfold rank_to in Ez.
        apply filter_In in Iz. destruct Iz as [Iz Oz]. apply Nat.eqb_eq in Oz. rewrite Oz in Ez. apply rank_inj in Ez; auto.
        apply Np. rewrite <- F1, map_map. apply in_map_iff. exists z. split; [|exact Iz]. cbn. lia.
      + rewrite A4, EC by auto. unfold link. rewrite Nat.eqb_refl. cbn [filter fst]. rewrite Nat.eqb_refl. reflexivity.
      + rewrite <- F2 in Lv. exact Lv.
  Qed.

  (* ---------- runs ---------- *)
  Context (first : nat -> segment) (rest : nat -> list segment).
  Context (Hgood : forall p, p < N -> good N c (first p :: rest p)).
  Context (Hmatch : forall p q, p < N -> q < N ->
    tags q (sends_in (all_posts (first p :: rest p))) = tags p (recvs_in (all_posts (first q :: rest q)))).
  Context (nprog cprog : nat -> list instr).
  Context (Hn : forall p, p < N -> nprog p = seg_code (first p) ++ later_code (rest p)).
  Context (Hcp : forall p r, p < N -> r < c -> cprog (p * c + r) = seg_core c r (first p) ++ later_core c r (rest p)).
  Context (m : nat -> @memory V).

  Lemma post_first P : P <= N -> exists a, reach (start nprog m) a /\ chan a = (fun _ _ => []) /\
    (forall p, p < N -> procs a p = if p <? P
       then Process (locals (first p) ++ waits (wait (first p)) ++ later_code (rest p)) (m p)
              (map node_req (sends_in (posts (first p)))) (map node_req (recvs_in (posts (first p))))
       else Process (nprog p) (m p) [] []).
  Proof.
    induction P as [|P IH]; intros HP.
    - exists (start nprog m). split; [constructor|]. split; reflexivity.
    - destruct (IH ltac:(lia)) as (a & R & Ch & A).
      assert (AP := A P ltac:(lia)). destruct (Nat.ltb_spec P P); [lia|].
      destruct (post_step op N (posts (first P)) a P (locals (first P) ++ waits (wait (first P)) ++ later_code (rest P))) as (b & R' & Ch' & O & B).
      { lia. }
      { rewrite AP. cbn. rewrite Hn by lia. unfold seg_code. now rewrite <- !app_assoc. }
      exists b. split; [eapply reach_trans; eauto|]. split; [congruence|]. intros p Hp. destruct (Nat.eq_dec p P) as [->|D].
      + rewrite B, AP. destruct (Nat.ltb_spec P (S P)); [|lia]. reflexivity.
      + rewrite O, A by auto. destruct (Nat.ltb_spec p P), (Nat.ltb_spec p (S P)); auto; lia.
  Qed.

  Lemma start_related : exists a, reach (start nprog m) a /\ related (cstart cprog m) a.
  Proof.
    destruct (post_first N (Nat.le_refl N)) as (a & R & Ch & A). exists a. split; [exact R|].
    exists (fun p => NG (sends_in (posts (first p))) (recvs_in (posts (first p))) (locals (first p)) (wait (first p)) (rest p)),
           (fun p r => CG (of_core r (posts (first p))) false [] []), (fun _ _ => []).
    split; [|split; [|split]].
    - intros p Hp. rewrite A by auto. destruct (Nat.ltb_spec p N); [|lia]. destruct (Hgood p Hp) as (M1 & M2 & M3 & M4 & M5 & M6).
      unfold node_ok. cbn [code mem sending receiving gS gR gL gW gK cstart nmem].
      cbn [upto] in M1, M2. rewrite sends_app in M1. rewrite recvs_app in M2. do 4 (split; [reflexivity|]).
      split; [destruct (wait (first p)); exact M1|]. split; [destruct (wait (first p)); exact M2|].
      split; [exact M3|]. split; [exact M6|]. split; [exact M5|].
      split; apply Forall_forall; intros x I; apply filter_In in I; rewrite Forall_forall in M4; apply M4; tauto.
    - intros p r Hp Hr. unfold core_ok. cbn [cstart cores ccode csending creceiving gS gR gL gW gK hP hD hS hR].
      split; [rewrite Hcp by auto; unfold seg_core; now rewrite <- !app_assoc|]. split; [reflexivity|]. split; [reflexivity|].
      cbn [app]. unfold of_core, sends_in, recvs_in. rewrite (filter_swap (fun x => own x =? r)), (filter_swap (fun x => own x =? r) is_recv).
      split; [reflexivity|]. split; [reflexivity|discriminate].
    - intros p q Hp Hq. split; [now rewrite Ch|]. unfold pair_ok. cbn [map app gS gR gK].
      specialize (Hmatch p q Hp Hq). unfold all_posts in Hmatch. cbn [flat_map] in Hmatch. rewrite sends_app, recvs_app, !tags_app in Hmatch. exact Hmatch.
    - intros p q r r' _ _ _ _. cbn. unfold link. now destruct (r =? r').
  Qed.
  Lemma run_related s : creach op N c (cstart cprog m) s -> exists a, reach (start nprog m) a /\ related s a.
  Proof.
    intros R. induction R as [|t u R IH St]; [exact start_related|]. destruct IH as (a & Ra & Rel).
    destruct (sim_step op N c Hc t a u Rel St) as (b & Rb & Rel'). exists b. split; [eapply reach_trans; eauto|exact Rel'].
  Qed.

  Theorem multi_never_stuck : never_stuck op N nprog m -> cnever_stuck op N c cprog m.
  Proof. intros NS s R. destruct (run_related s R) as (a & Ra & Rel). apply (progress s a Rel). now apply NS. Qed.
  Lemma core_done s a p r : related s a -> p < N -> r < c -> cfinished s (p * c + r) -> finished a p /\ mem (procs a p) = nmem s p.
  Proof.
    intros (G & H & C & A1 & A2 & A3 & A4) Hp Hr F. destruct (A1 p Hp) as (N1 & N2 & _ & _ & _ & _ & _ & _ & N9 & _).
    destruct (A2 p r Hp Hr) as (C1 & _). red in F. rewrite F in C1. symmetry in C1. apply app_eq_nil in C1. destruct C1 as [_ K].
    assert (K' : gK (G p) = []) by (destruct (gK (G p)); [reflexivity|discriminate]). destruct (N9 K') as [L W].
    split; [|exact N2]. red. now rewrite N1, L, W, K'.
  Qed.
  Theorem multi_computes result : computes op N nprog m result -> ccomputes op N c cprog m result.
  Proof.
    intros Co s p r R Hp Hr F. destruct (run_related s R) as (a & Ra & Rel).
    destruct (core_done s a p r Rel Hp Hr F) as [Fa <-]. exact (Co a p Ra Hp Fa).
  Qed.
  Theorem multi_leaves_nothing : leaves_nothing op N nprog m -> cleaves_nothing op N c cprog m.
  Proof.
    intros LN s R F j k Hj Hk. destruct (run_related s R) as (a & Ra & Rel).
    assert (Fa : forall p, p < N -> finished a p).
    { intros p Hp. apply (core_done s a p 0 Rel Hp Hc). apply F. apply rank_lt; auto. }
    destruct Rel as (G & H & C & A1 & A2 & A3 & A4).
    destruct (rank_split c N j Hc Hj) as (p & r & Hp & Hr & ->). destruct (rank_split c N k Hc Hk) as (q & r' & Hq & Hr' & ->).
    destruct (LN a Ra Fa p q Hp Hq) as (Z & _). destruct (LN a Ra Fa q q Hq Hq) as (_ & Z1 & Z2).
    destruct (A3 p q Hp Hq) as [X _]. rewrite Z in X. destruct (C p q) eqn:E; [|discriminate].
    split; [rewrite A4, E by auto; unfold link; now destruct (r =? r')|].
    destruct (A1 q Hq) as (_ & _ & N3 & N4 & _). destruct (A2 q r' Hq Hr') as (_ & C2 & C3 & C4 & C5 & _).
    rewrite Z1 in N3. rewrite Z2 in N4. destruct (gS (G q)); [|discriminate]. destruct (gR (G q)); [|discriminate]. cbn in C4, C5.
    symmetry in C4, C5. apply app_eq_nil in C4. apply app_eq_nil in C5. destruct C4 as [S0 _], C5 as [R0 _].
    rewrite C2, C3, S0, R0. split; reflexivity.
  Qed.
End Run.
