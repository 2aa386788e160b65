From Verif Require Import Base HandleModel HandleSpec.

Section Proofs.
  Context {P X W : Type}.
  Context (exec : W -> P -> X -> Z -> W * option X * Z) (entry : P -> X).
  Hypothesis exec_blocking : forall w p x m, m = 2%Z \/ m = 3%Z ->
    snd (fst (exec w p x m)) = None.

  Notation hstate := (hstate P X).
  Notation world := (world P X).
  Notation coll := (coll P X).
  Notation cell := (cell P X).

  Definition other (c : coll) : option P :=
    match alt c with
    | Some q => Some (if Nat.odd (starts c) then prog c else q)
    | None => None
    end.

  Definition rep (c : option coll) (u v : cell) : Prop :=
    ep v = None /\
    match c with
    | None => code u = None /\ code v = None /\ ep u = None /\ aw u = 0%Z
    | Some c => code u = Some (current c) /\ code v = other c /\ ep u = run c /\
                aw u = (if polled c then 1 else 0)%Z
    end.

  Definition Inv (s : hstate) (a : world) : Prop :=
    2 <= hmax s /\ Nat.even (hmax s) = true /\ bound a <= hmax s /\
    (forall h c, colls a h = Some c -> Nat.even h = true /\ h < bound a) /\
    match arr s with
    | None => forall h, colls a h = None
    | Some l => length l = hmax s /\
        forall i, 2 * i < hmax s ->
          exists u v, nth_error l (2 * i) = Some u /\ nth_error l (2 * i + 1) = Some v /\
                      rep (colls a (2 * i)) u v
    end.

  Lemma inv_init : Inv (@hinit P X) (@world0 P X).
  Proof. unfold Inv, hinit, world0; simpl. repeat split; try lia; try discriminate. Qed.

  Lemma even_split h : Nat.even h = true -> exists i, h = 2 * i.
  Proof. intros H. apply Nat.even_spec in H. destruct H as [i ->]. now exists i. Qed.

  (* The invariant for an allocated table. *)
  Definition Rep (l : list cell) (n : nat) (f : nat -> option coll) : Prop :=
    length l = n /\ forall i, 2 * i < n ->
      exists u v, nth_error l (2 * i) = Some u /\ nth_error l (2 * i + 1) = Some v /\
                  rep (f (2 * i)) u v.

  Lemma rep_upd l n f i u v c : Rep l n f -> 2 * i < n -> Nat.even n = true ->
    rep c u v -> Rep (lset (lset l (2 * i + 1) v) (2 * i) u) n (upd Nat.eq_dec f (2 * i) c).
  Proof.
    intros [HL HR] Hi He Hr. split; [now rewrite !lset_length|].
    apply even_split in He. destruct He as [m ->].
    intros j Hj. destruct (Nat.eq_dec j i) as [->|Hne].
    - exists u, v. rewrite upd_same. repeat split; try apply Hr.
      + apply lset_same. rewrite lset_length. lia.
      + rewrite lset_other by lia. apply lset_same. lia.
    - destruct (HR j Hj) as (u' & v' & Hu & Hv & Hr').
      exists u', v'. rewrite upd_other by lia.
      rewrite !lset_other by lia. auto.
  Qed.

  Lemma rep_upd1 l n f i u v v0 c : Rep l n f -> 2 * i < n -> Nat.even n = true ->
    nth_error l (2 * i + 1) = Some v0 -> v0 = v ->
    rep c u v -> Rep (lset l (2 * i) u) n (upd Nat.eq_dec f (2 * i) c).
  Proof.
    intros [HL HR] Hi He Hv <- Hr. split; [now rewrite !lset_length|].
    intros j Hj. destruct (Nat.eq_dec j i) as [->|Hne].
    - exists u, v0. rewrite upd_same. repeat split; try apply Hr.
      + apply lset_same. lia.
      + rewrite lset_other by lia. auto.
    - destruct (HR j Hj) as (u' & v' & Hu & Hv' & Hr').
      exists u', v'. rewrite upd_other by lia.
      rewrite !lset_other by lia. auto.
  Qed.

  Lemma nth_repeat (x : cell) n i : i < n -> nth_error (repeat x n) i = Some x.
  Proof. revert i; induction n; destruct i; simpl; intros; auto; try lia. apply IHn; lia. Qed.

  Lemma rep_fresh n : Nat.even n = true -> Rep (repeat (@cell0 P X) n) n (fun _ => None).
  Proof.
    intros He. split; [apply repeat_length|]. intros i Hi.
    apply even_split in He. destruct He as [m ->].
    exists (@cell0 P X), (@cell0 P X). rewrite !nth_repeat by lia.
    unfold rep; simpl; auto 10.
  Qed.

  Lemma rep_grow l n f : Rep l n f -> Nat.even n = true ->
    (forall h, n <= h -> f h = None) ->
    Rep (l ++ repeat (@cell0 P X) (n * 2 - length l)) (n * 2) f.
  Proof.
    intros [HL HR] He Hf. apply even_split in He. destruct He as [m ->].
    split. { rewrite app_length, repeat_length. lia. }
    intros i Hi. destruct (lt_dec (2 * i) (2 * m)) as [Hlt|Hge].
    - destruct (HR i Hlt) as (u & v & Hu & Hv & Hr). exists u, v.
      rewrite !nth_error_app1 by lia. auto.
    - exists (@cell0 P X), (@cell0 P X).
      rewrite !nth_error_app2 by lia. rewrite !nth_repeat by lia.
      rewrite Hf by lia. unfold rep; simpl; auto 10.
  Qed.

  Lemma scan_spec l n f : Rep l n f -> Nat.even n = true -> 2 <= n ->
    forall fuel i, 2 * i < n -> n < 2 * i + fuel ->
    exists j u, i <= j /\ 2 * j < n /\ scan fuel l n (2 * i) = Some (2 * j) /\
      nth_error l (2 * j) = Some u /\
      (code u = None \/ n - 2 <= 2 * j).
  Proof.
    intros HRep He Hn. pose proof He as He'. apply even_split in He'. destruct He' as [m ->].
    destruct HRep as [HL HR].
    induction fuel as [|fuel IH]; intros i Hi Hf; [lia|].
    cbn [scan]. destruct (HR i Hi) as (u & v & Hu & Hv & Hr). rewrite Hu.
    destruct (code u) eqn:Ec.
    - destruct (2 * i <? 2 * m - 2) eqn:El.
      + apply Nat.ltb_lt in El. replace (2 * i + 2) with (2 * (i + 1)) by lia.
        destruct (IH (i + 1)) as (j & u' & H1 & H2 & H3 & H4 & H5); [lia| |].
        { lia. }
        exists j, u'. repeat split; auto; lia.
      + apply Nat.ltb_ge in El. exists i, u. repeat split; auto; lia.
    - exists i, u. repeat split; auto; lia.
  Qed.

  Lemma rep_ext l n f g : Rep l n f -> (forall i, 2 * i < n -> f (2 * i) = g (2 * i)) -> Rep l n g.
  Proof.
    intros [HL HR] E. split; auto. intros i Hi. rewrite <- E by auto. auto.
  Qed.

  Lemma get_handle_spec s a : Inv s a ->
    exists s' i l, get_handle s = Some (s', 2 * i) /\ arr s' = Some l /\
      colls a (2 * i) = None /\ 2 * i < hmax s' /\ hmax s <= hmax s' /\
      Nat.even (hmax s') = true /\ Rep l (hmax s') (colls a).
  Proof.
    intros (H2 & He & Hb & Hl & Ha).
    set (l := match arr s with Some l => l | None => repeat (@cell0 P X) (hmax s) end).
    assert (HR : Rep l (hmax s) (colls a)).
    { unfold l. destruct (arr s) as [l0|]; [exact Ha|].
      apply rep_ext with (fun _ => None); [now apply rep_fresh|]. intros; now rewrite Ha. }
    pose proof (proj1 HR) as HL.
    destruct (scan_spec l (hmax s) (colls a) HR He H2 (S (length l)) 0)
      as (j & u & _ & Hj & Hs & Hu & Hc); [lia|lia|].
    simpl (2 * 0) in Hs.
    unfold get_handle. fold l. rewrite Hs, Hu.
    destruct (proj2 HR j Hj) as (u' & v' & Hu' & Hv' & Hr').
    rewrite Hu in Hu'. injection Hu' as <-.
    destruct (code u) as [p|] eqn:Ec.
    - destruct Hc as [|Hc]; [discriminate|].
      destruct (hmax s - 2 <=? 2 * j) eqn:El; [|apply Nat.leb_gt in El; lia].
      exists (HState (hmax s * 2) (Some (l ++ repeat (@cell0 P X) (hmax s * 2 - length l)))), (j + 1),
        (l ++ repeat (@cell0 P X) (hmax s * 2 - length l)).
      replace (2 * (j + 1)) with (2 * j + 2) by lia. cbn [arr hmax].
      assert (Hout : forall h, hmax s <= h -> colls a h = None).
      { intros h Hh. destruct (colls a h) as [c|] eqn:Ecc; auto.
        apply Hl in Ecc. lia. }
      repeat split; auto; try lia.
      + apply Hout. apply even_split in He. destruct He as [m He]. lia.
      + rewrite Nat.even_mul. apply orb_true_r.
      + apply (proj1 (rep_grow _ _ _ HR He Hout)).
      + apply (proj2 (rep_grow _ _ _ HR He Hout)).
    - destruct (hmax s - 2 <=? 2 * j);
      (exists (HState (hmax s) (Some l)), j, l; cbn [arr hmax]; repeat split; auto; try apply HR;
       destruct (colls a (2 * j)) as [c|] eqn:Ecc; auto;
       destruct Hr' as (_ & Hr' & _); congruence).
  Qed.

  Definition okl (a : world) := forall h c, colls a h = Some c -> Nat.even h = true /\ h < bound a.

  Lemma inv_some s a l : arr s = Some l ->
    (Inv s a <-> 2 <= hmax s /\ Nat.even (hmax s) = true /\ bound a <= hmax s /\ okl a /\
                 Rep l (hmax s) (colls a)).
  Proof. intros E. unfold Inv, Rep, okl. rewrite E. tauto. Qed.

  Lemma okl_put a h c : okl a -> colls a h <> None -> okl (put a h c).
  Proof.
    intros H Hh k d. unfold put; simpl. unfold upd.
    destruct (Nat.eq_dec k h) as [->|]; [|apply H].
    intros _. destruct (colls a h) eqn:E; [eapply H; eauto|congruence].
  Qed.

  Lemma inv_after s a l h c l' : Inv s a -> arr s = Some l -> colls a h <> None ->
    Rep l' (hmax s) (upd Nat.eq_dec (colls a) h c) ->
    Inv (HState (hmax s) (Some l')) (put a h c).
  Proof.
    intros HI Hs Hh HR. rewrite (inv_some s a l Hs) in HI.
    destruct HI as (H2 & He & Hb & Hl & _).
    erewrite inv_some by reflexivity. cbn [hmax].
    split; [auto|]. split; [auto|]. split; [auto|]. split; [|exact HR].
    now apply okl_put.
  Qed.

  (* Facts about a live handle. *)
  Lemma live_cells s a h c : Inv s a -> colls a h = Some c ->
    exists i l u v, h = 2 * i /\ arr s = Some l /\ 2 * i < hmax s /\
      nth_error l (2 * i) = Some u /\ nth_error l (2 * i + 1) = Some v /\
      rep (Some c) u v.
  Proof.
    intros (H2 & He & Hb & Hl & Ha) Hc.
    destruct (Hl h c Hc) as [Heh Hlt].
    apply even_split in Heh. destruct Heh as [i ->].
    destruct (arr s) as [l|]; [|rewrite Ha in Hc; discriminate].
    destruct Ha as [HL HR]. destruct (HR i ltac:(lia)) as (u & v & Hu & Hv & Hr).
    exists i, l, u, v. rewrite Hc in Hr. repeat split; auto; try lia; apply Hr.
  Qed.

  Lemma start_current (c : coll) : nth_program c (S (starts c)) =
    match other c with Some q => q | None => current c end.
  Proof.
    unfold current, nth_program, other; simpl. rewrite Nat.odd_succ, <- Nat.negb_odd.
    destruct (alt c); auto. destruct (Nat.odd (starts c)); auto.
  Qed.

  Lemma start_other (c : coll) x b : other (Coll (prog c) (alt c) (S (starts c)) x b) =
    match other c with Some q => Some (current c) | None => None end.
  Proof.
    unfold current, nth_program, other; simpl. rewrite Nat.odd_succ, <- Nat.negb_odd.
    destruct (alt c); auto. destruct (Nat.odd (starts c)); auto.
  Qed.

  (* Running the program of a cell. *)
  Lemma run_cell_rep w (c : coll) (u v : cell) m :
    rep (Some c) u v ->
    exists w' c' r u', advance exec w c m = (w', c', r) /\
      run_cell exec w (set_aw u m) = Some (w', u', r) /\
      ep u' = run c' /\ code u' = Some (current c') /\ aw u' = m /\
      prog c' = prog c /\ alt c' = alt c /\ starts c' = starts c /\ polled c' = polled c /\
      (m = 2%Z \/ m = 3%Z -> run c' = None).
  Proof.
    intros (Hev & Hcu & Hcv & Heu & Hau).
    unfold advance, run_cell. cbn [set_aw ep code aw]. rewrite Heu.
    destruct (run c) as [x|] eqn:Er.
    - rewrite Hcu. pose proof (exec_blocking w (current c) x m) as EB.
      destruct (exec w (current c) x m) as [[w' x'] r] eqn:Ee. simpl in EB.
      exists w', (Coll (prog c) (alt c) (starts c) x' (polled c)), r, (Cell (code u) x' m).
      simpl. rewrite Hcu. repeat split; auto. unfold set_ep; simpl. now rewrite Hcu.
    - exists w, c, 0%Z, (set_aw u m). simpl. rewrite Hcu, Heu. repeat split; auto.
  Qed.

  Lemma evens_in n : Nat.even n = true -> evens n = map (fun i => 2 * i) (seq 0 (Nat.div2 n)).
  Proof.
    intros He. apply even_split in He. destruct He as [m ->]. unfold evens.
    f_equal. f_equal. rewrite Nat.div2_double. replace (2 * m + 1) with (S (2 * m)) by lia.
    apply Nat.div2_succ_double.
  Qed.

  Lemma set_aw_id (u : cell) : set_aw u (aw u) = u.
  Proof. destruct u; reflexivity. Qed.

  (* Skipping handles without a live collective. *)
  Lemma advance_all_filter : forall hs w a acc (Q : nat -> bool),
    (forall h, In h hs -> Q h = false -> colls a h = None) ->
    advance_all exec w a acc hs = advance_all exec w a acc (filter Q hs).
  Proof.
    induction hs as [|h hs IH]; intros w a acc Q HQ; simpl; auto.
    destruct (Q h) eqn:Eq; simpl.
    - destruct (colls a h) as [c|] eqn:Ec.
      + destruct (advance exec w c _) as [[w' c'] r].
        apply IH. intros k Hk Hq. unfold put; simpl. unfold upd.
        destruct (Nat.eq_dec k h) as [->|]; [congruence|]. apply HQ; simpl; auto.
      + apply IH. intros; apply HQ; simpl; auto.
    - rewrite HQ by (simpl; auto). apply IH. intros; apply HQ; simpl; auto.
  Qed.

  Lemma evens_filter m : filter Nat.even (seq 0 (2 * m)) = map (fun i => 2 * i) (seq 0 m).
  Proof.
    induction m; auto.
    replace (2 * S m) with (S (S (2 * m))) by lia.
    rewrite (seq_S (S (2*m))), (seq_S (2*m)), (seq_S m), !filter_app, map_app, IHm.
    cbn [filter].
    replace (0 + 2 * m) with (2 * m) by lia. replace (0 + S (2 * m)) with (S (2 * m)) by lia.
    rewrite Nat.even_succ.
    rewrite <- Nat.negb_even, Nat.even_mul. simpl. rewrite app_nil_r. reflexivity.
  Qed.

  Lemma progress_loop_spec n : forall k i w s a acc l,
    arr s = Some l -> hmax s = n -> Inv s a -> 2 * (i + k) <= n ->
    exists w' s' a' r l', arr s' = Some l' /\
      progress_loop exec w s acc (map (fun i => 2 * i) (seq i k)) = Some (w', s', r) /\
      advance_all exec w a acc (map (fun i => 2 * i) (seq i k)) = (w', a', r) /\
      Inv s' a'.
  Proof.
    induction k as [|k IH]; intros i w s a acc l Hs Hn HI Hk.
    { exists w, s, a, acc, l. auto. }
    cbn [seq map progress_loop advance_all].
    pose proof HI as HI'. rewrite (inv_some s a l Hs) in HI'.
    destruct HI' as (H2 & He & Hb & Hl & HRep).
    destruct HRep as [HL HR]. destruct (HR i ltac:(lia)) as (u & v & Hu & Hv & Hr).
    unfold rd at 1. rewrite Hs, Hu.
    destruct (colls a (2 * i)) as [c|] eqn:Ec.
    - assert (Hau : aw u = (if polled c then 1 else 0)%Z) by apply Hr.
      destruct (run_cell_rep w c u v (if polled c then 1 else 0)%Z Hr)
        as (w' & c' & r & u' & Hadv & Hrun & Hep & Hcode & Haw & Hp & Hal & Hst & Hpo & _).
      rewrite <- Hau in Hrun. rewrite set_aw_id in Hrun. rewrite Hrun, Hadv.
      apply (IH (i + 1 - 0) w' (wr s (2 * i) u') (put a (2 * i) (Some c')) (acc + r)%Z (lset l (2 * i) u')) in Hn as Hx.
      2:{ unfold wr; rewrite Hs; reflexivity. }
      2:{ unfold wr. rewrite Hs. eapply inv_after; eauto; try congruence.
          apply (rep_upd1 l (hmax s) (colls a) i u' v v (Some c')); auto; try lia.
          + split; auto.
          + destruct Hr as (? & ? & Hcv & ? & ?). split; auto.
            repeat split; auto; [|rewrite Haw, Hpo; auto].
            unfold other. rewrite Hal, Hst, Hp. exact Hcv. }
      2: lia.
      replace (i + 1 - 0) with (S i) in Hx by lia. exact Hx.
    - destruct Hr as (Hev & Hcu & Hcv & Heu & Hau).
      unfold run_cell. rewrite Heu.
      assert (Hsame : wr s (2 * i) u = s).
      { destruct s as [mx ar]. cbn [arr] in Hs. subst ar. unfold wr. cbn [arr hmax].
        now rewrite lset_id. }
      rewrite Hsame, Z.add_0_r.
      eapply IH; eauto. lia.
  Qed.

  Lemma bound_put a h (c : option coll) : bound (put a h c) = bound a.
  Proof. reflexivity. Qed.

  Lemma step_refines w s a c : Inv s a -> legal_call a c ->
    exists w' s' r a', step exec entry w s c = Some (w', s', r) /\
      spec_step exec entry w a c r = Some (w', a') /\ Inv s' a'.
  Proof.
    intros HI HL. destruct c as [p q|h|h| |h|h]; simpl in HL.
    - (* create *)
      destruct (get_handle_spec s a HI) as (s1 & i & l & Hg & Hs1 & Hfree & Hlt & Hge & He & HR).
      pose proof HI as (H2 & _ & Hb & Hl & _).
      pose proof (even_split _ He) as [m Hm].
      destruct (proj2 HR i Hlt) as (u & v & Hu & Hv & Hr).
      cbn [step spec_step]. unfold create. rewrite Hg. unfold rd at 1. rewrite Hs1, Hu.
      unfold rd, wr at 1. rewrite Hs1. cbn [arr].
      rewrite lset_other by lia. rewrite Hv.
      do 4 eexists. split; [reflexivity|]. cbn [spec_step]. rewrite Hfree. split; [reflexivity|].
      rewrite Hfree in Hr. destruct Hr as (Hev & Hcu & Hcv & Heu & Hau).
      unfold wr. rewrite Hs1. cbn [arr hmax].
      assert (Hswap : lset (lset l (2 * i) (set_code u (Some p))) (2 * i + 1) (set_code v q)
              = lset (lset l (2 * i + 1) (set_code v q)) (2 * i) (set_code u (Some p))).
      { apply lset_comm. lia. }
      rewrite Hswap.
      erewrite inv_some by reflexivity. cbn [hmax colls bound].
      split; [lia|]. split; [auto|]. split; [lia|]. split.
      + intros h c H. cbn [colls bound] in *. unfold upd in H.
        destruct (Nat.eq_dec h (2 * i)) as [->|].
        * rewrite Nat.even_mul. split; [reflexivity|lia].
        * apply Hl in H. split; [apply H|lia].
      + apply rep_upd; auto. repeat split; simpl; auto.
        * unfold current, nth_program; simpl. now destruct q.
        * unfold other; simpl. now destruct q.
    - (* start *)
      destruct HL as (c & Hc & Hidle).
      destruct (live_cells s a h c HI Hc) as (i & l & u & v & -> & Hs & Hlt & Hu & Hv & Hr).
      pose proof HI as HI'. rewrite (inv_some s a l Hs) in HI'.
      destruct HI' as (H2 & He & Hb & Hl & HRep).
      pose proof (even_split _ He) as [m Hm].
      destruct Hr as (Hev & Hcu & Hcv & Heu & Hau).
      cbn [step spec_step]. unfold start, rd. rewrite Hs, Hu, Hv.
      pose proof (start_current c) as SC. 
      rewrite Hc.
      destruct (code v) as [q|] eqn:Ecv.
      + rewrite <- Hcv in SC. cbn [code].
        do 4 eexists. split; [reflexivity|]. split; [reflexivity|].
        unfold wr. rewrite Hs. cbn [arr hmax]. rewrite SC.
        eapply inv_after; eauto; try congruence.
        apply rep_upd; auto. split; [simpl; congruence|].
        rewrite <- SC. simpl. repeat split; auto. rewrite start_other, <- Hcv. auto.
      + rewrite <- Hcv in SC. rewrite Hcu.
        do 4 eexists. split; [reflexivity|]. split; [reflexivity|].
        unfold wr. rewrite Hs. cbn [arr hmax]. rewrite SC.
        eapply inv_after; eauto; try congruence.
        apply rep_upd; auto. split; [simpl; congruence|].
        rewrite <- SC. simpl. repeat split; auto. rewrite start_other, <- Hcv. auto.
    - (* test *)
      destruct (colls a h) as [c|] eqn:Hc; [|congruence].
      destruct (live_cells s a h c HI Hc) as (i & l & u & v & -> & Hs & Hlt & Hu & Hv & Hr).
      pose proof HI as HI'. rewrite (inv_some s a l Hs) in HI'.
      destruct HI' as (H2 & He & Hb & Hl & HRep).
      destruct (run_cell_rep w c u v 1%Z Hr)
        as (w' & c' & r & u' & Hadv & Hrun & Hep & Hcode & Haw & Hp & Hal & Hst & Hpo & _).
      cbn [step spec_step]. unfold test, rd. rewrite Hs, Hu, Hrun, Hc, Hadv, Hep.
      do 4 eexists. split; [reflexivity|]. cbn beta iota. rewrite eqb_reflx. split; [reflexivity|].
      unfold wr. rewrite Hs. eapply inv_after; eauto; try congruence.
      { eapply rep_upd1; eauto.
        destruct Hr as (? & ? & Hcv & ? & ?). split; auto. simpl. repeat split; auto.
        unfold other; simpl. rewrite Hal, Hst, Hp. exact Hcv. }
    - (* progress *)
      destruct HL as [h Hh]. destruct (colls a h) as [c|] eqn:Hc; [|congruence].
      destruct (live_cells s a h c HI Hc) as (i & l & u & v & -> & Hs & Hlt & Hu & Hv & Hr).
      pose proof HI as HI'. rewrite (inv_some s a l Hs) in HI'.
      destruct HI' as (H2 & He & Hb & Hl & HRep).
      cbn [step spec_step]. unfold progress. rewrite evens_in by auto.
      pose proof (even_split _ He) as [m Hm]. rewrite Hm, Nat.div2_double.
      destruct (progress_loop_spec (2 * m) m 0 w s a 0 l Hs Hm HI) as
        (w' & s' & a' & r & l' & Hs' & Hp & Hadv & HI''); [lia|].
      rewrite Hp. do 4 eexists. split; [reflexivity|].
      assert (E : advance_all exec w a 0 (seq 0 (bound a)) = (w', a', r)).
      { rewrite <- Hadv. rewrite <- evens_filter.
        rewrite <- (advance_all_filter (seq 0 (2 * m)) w a 0 Nat.even).
        2:{ intros k _ Hk. destruct (colls a k) eqn:E; auto. apply Hl in E. destruct E; congruence. }
        replace (2 * m) with (bound a + (2 * m - bound a)) by lia.
        rewrite seq_app.
        rewrite (advance_all_filter (seq 0 (bound a)) w a 0 (fun k => k <? bound a)).
        2:{ intros k Hin Hk. apply in_seq in Hin. apply Nat.ltb_ge in Hk. lia. }
        rewrite (advance_all_filter (seq 0 (bound a) ++ _) w a 0 (fun k => k <? bound a)).
        2:{ intros k _ Hk. apply Nat.ltb_ge in Hk. destruct (colls a k) eqn:E; auto.
            apply Hl in E. lia. }
        f_equal. rewrite filter_app.
        assert (G : forall x n, bound a <= x -> filter (fun k => k <? bound a) (seq x n) = []).
        { intros x n; revert x. induction n; simpl; auto. intros x Hx.
          destruct (x <? bound a) eqn:E; [apply Nat.ltb_lt in E; lia|]. apply IHn. lia. }
        rewrite (G (0 + bound a)) by lia. now rewrite app_nil_r. }
      rewrite E, Z.eqb_refl. split; [reflexivity|exact HI''].
    - (* wait *)
      destruct (colls a h) as [c|] eqn:Hc; [|congruence].
      destruct (live_cells s a h c HI Hc) as (i & l & u & v & -> & Hs & Hlt & Hu & Hv & Hr).
      pose proof HI as HI'. rewrite (inv_some s a l Hs) in HI'.
      destruct HI' as (H2 & He & Hb & Hl & HRep).
      assert (Hm : (if (aw u =? 0)%Z then 3 else 2)%Z = (if polled c then 2 else 3)%Z).
      { destruct Hr as (_ & _ & _ & _ & ->). destruct (polled c); reflexivity. }
      destruct (run_cell_rep w c u v (if polled c then 2 else 3)%Z Hr)
        as (w' & c' & r & u' & Hadv & Hrun & Hep & Hcode & Haw & Hp & Hal & Hst & Hpo & Hnone).
      cbn [step spec_step]. unfold wait, rd. rewrite Hs, Hu, Hm, Hrun, Hc, Hadv.
      do 4 eexists. split; [reflexivity|]. split; [reflexivity|].
      unfold wr. rewrite Hs. eapply inv_after; eauto; try congruence.
      { eapply rep_upd1; eauto.
        destruct Hr as (? & ? & Hcv & ? & ?). split; auto. simpl. repeat split; auto.
        * unfold other; simpl. rewrite Hal, Hst, Hp. exact Hcv.
        * rewrite Hep. apply Hnone. destruct (polled c); auto. }
    - (* done *)
      destruct (colls a h) as [c|] eqn:Hc; [|congruence].
      destruct (live_cells s a h c HI Hc) as (i & l & u & v & -> & Hs & Hlt & Hu & Hv & Hr).
      pose proof HI as HI'. rewrite (inv_some s a l Hs) in HI'.
      destruct HI' as (H2 & He & Hb & Hl & HRep).
      assert (Hm : (if (aw u =? 0)%Z then 3 else 2)%Z = (if polled c then 2 else 3)%Z).
      { destruct Hr as (_ & _ & _ & _ & ->). destruct (polled c); reflexivity. }
      destruct (run_cell_rep w c u v (if polled c then 2 else 3)%Z Hr)
        as (w' & c' & r & u' & Hadv & Hrun & Hep & Hcode & Haw & Hp & Hal & Hst & Hpo & Hnone).
      pose proof (even_split _ He) as [m Hmm].
      pose proof (proj1 HRep) as HL'.
      cbn [step spec_step]. unfold done, wait, rd. rewrite Hs, Hu, Hm, Hrun.
      unfold wr at 1. rewrite Hs. cbn [arr]. rewrite lset_same by lia.
      cbn [set_aw code]. rewrite Hcode.
      unfold wr at 1 2. rewrite Hs. cbn [arr]. rewrite !lset_other by lia. rewrite Hv.
      unfold wr. rewrite Hs. cbn [arr hmax set_code set_aw ep aw].
      set (l' := lset _ (2 * i + 1) _).
      assert (Hl' : l' = lset (lset l (2 * i + 1) (Cell None (ep v) (aw v))) (2 * i) (Cell None (ep u') 0%Z)).
      { unfold l'. rewrite lset_twice. apply lset_comm. lia. }
      assert (HRep' : Rep l' (hmax s) (upd Nat.eq_dec (colls a) (2 * i) None)).
      { rewrite Hl'. apply rep_upd; auto. destruct Hr as (Hev & _).
        split; auto. simpl. repeat split; auto. rewrite Hep. apply Hnone. destruct (polled c); auto. }
      assert (Hokl : okl (put a (2 * i) None)) by (apply okl_put; auto; congruence).
      destruct (forallb _ l') eqn:Eall.
      + do 4 eexists. split; [reflexivity|]. rewrite Hc, Hadv. split; [reflexivity|].
        unfold Inv; simpl. repeat split; auto; try (eapply Hokl; eauto).
        intros h. rewrite forallb_forall in Eall.
        destruct (upd Nat.eq_dec (colls a) (2 * i) None h) as [d|] eqn:Ed; auto. exfalso.
        destruct (Hokl h d Ed) as [Heh Hlh]. simpl in Hlh.
        apply even_split in Heh. destruct Heh as [j ->].
        destruct (proj2 HRep' j ltac:(lia)) as (x & y & Hx & Hy & Hxy).
        rewrite Ed in Hxy. destruct Hxy as (_ & Hxc & _).
        apply nth_error_In in Hx. apply Eall in Hx. rewrite Hxc in Hx. discriminate.
      + do 4 eexists. split; [reflexivity|]. rewrite Hc, Hadv. split; [reflexivity|].
        eapply inv_after; eauto; congruence.
  Qed.
End Proofs.

Section Histories.
  Context {P X W : Type}.
  Context (exec : W -> P -> X -> Z -> W * option X * Z) (entry : P -> X).
  Hypothesis EB : blocking_completes exec.

  Lemma history_inv w s a : history exec entry w s a -> Inv s a.
  Proof.
    induction 1 as [|w s a c w' s' r a' Hh IH HL Hs Ha]; [apply inv_init|].
    destruct (step_refines exec entry EB w s a c IH HL) as (w1 & s1 & r1 & a1 & E1 & E2 & E3).
    rewrite E1 in Hs. injection Hs as <- <- <-. rewrite E2 in Ha. injection Ha as <-. auto.
  Qed.

  Lemma lifecycle w s a c : history exec entry w s a -> legal_call a c ->
    exists w' s' r a', step exec entry w s c = Some (w', s', r) /\
                       spec_step exec entry w a c r = Some (w', a').
  Proof.
    intros Hh HL.
    destruct (step_refines exec entry EB w s a c (history_inv _ _ _ Hh) HL)
      as (w1 & s1 & r1 & a1 & E1 & E2 & E3).
    eauto 10.
  Qed.

  Lemma get_handle_keeps (s s' : hstate P X) h k c : get_handle s = Some (s', h) ->
    rd s k = Some c -> rd s' k = Some c.
  Proof.
    unfold get_handle, rd. intros Hg Hk. destruct (arr s) as [l|]; [|discriminate].
    destruct (scan _ _ _ _) as [h0|]; [|discriminate].
    destruct (nth_error l h0) as [c0|]; [|discriminate].
    assert (k < length l) by (apply nth_error_Some; congruence).
    destruct (hmax s - 2 <=? h0), (code c0); injection Hg as <- <-; simpl; auto.
    rewrite nth_error_app1; auto.
  Qed.

  Lemma rd_wr (s : hstate P X) h k c : h <> k -> rd (wr s h c) k = rd s k.
  Proof.
    intros. unfold rd, wr. destruct (arr s); simpl; auto. now apply lset_other.
  Qed.

  Lemma fresh_handles w s a p q : history exec entry w s a ->
    exists s' h, create s p q = Some (s', h) /\ colls a h = None /\ colls a (h + 1) = None /\
      forall k, colls a k <> None ->
        k <> h /\ rd s k <> None /\ rd s' k = rd s k /\ rd s' (k + 1) = rd s (k + 1).
  Proof.
    intros Hh. pose proof (history_inv _ _ _ Hh) as HI.
    destruct (get_handle_spec exec entry EB s a HI) as (s1 & i & l & Hg & Hs1 & Hfree & Hlt & Hge & He & HR).
    destruct (proj2 HR i Hlt) as (u & v & Hu & Hv & Hr).
    unfold create. rewrite Hg. unfold rd at 1. rewrite Hs1, Hu.
    rewrite rd_wr by lia. unfold rd at 1. rewrite Hs1, Hv.
    do 2 eexists. split; [reflexivity|]. split; [auto|]. split.
    { destruct (colls a (2 * i + 1)) as [d|] eqn:E; auto. exfalso.
      destruct HI as (_ & _ & _ & Hl & _). apply Hl in E. destruct E as [E _].
      apply even_split in E. destruct E. lia. }
    intros k Hk. destruct (colls a k) as [c|] eqn:Ec; [|congruence].
    destruct (live_cells s a k c HI Ec) as (j & l0 & x & y & -> & Hs & Hj & Hx & Hy & Hxy).
    split; [intros E; congruence|].
    assert (j <> i) by (intros ->; congruence).
    assert (R1 : rd s (2 * j) = Some x) by (unfold rd; rewrite Hs; auto).
    assert (R2 : rd s (2 * j + 1) = Some y) by (unfold rd; rewrite Hs; auto).
    split; [congruence|]. rewrite R1, R2. rewrite !rd_wr by lia.
    split; eapply get_handle_keeps; eauto.
  Qed.

  Lemma free_isolated w s a h w' s' : history exec entry w s a -> colls a h <> None ->
    done exec w s h = Some (w', s') ->
    forall k, colls a k <> None -> k <> h ->
      rd s k <> None /\ rd s' k = rd s k /\ rd s' (k + 1) = rd s (k + 1).
  Proof.
    intros Hh Hlive Hd k Hk Hne. pose proof (history_inv _ _ _ Hh) as HI.
    destruct (colls a k) as [c|] eqn:Ec; [|congruence].
    destruct (colls a h) as [d|] eqn:Ed; [|congruence].
    destruct (live_cells s a k c HI Ec) as (j & l0 & x & y & -> & Hs & Hj & Hx & Hy & Hxy).
    destruct (live_cells s a h d HI Ed) as (i & l1 & u & v & -> & Hs' & Hi & Hu & Hv & Huv).
    assert (R1 : rd s (2 * j) = Some x) by (unfold rd; rewrite Hs; auto).
    assert (R2 : rd s (2 * j + 1) = Some y) by (unfold rd; rewrite Hs; auto).
    split; [congruence|].
    unfold done in Hd.
    destruct (wait exec w s (2 * i)) as [[w1 s1]|] eqn:Ew; [|discriminate].
    assert (Hw : forall k, k <> 2 * i -> rd s1 k = rd s k).
    { unfold wait in Ew. destruct (rd s (2 * i)) as [c0|]; [|discriminate].
      destruct (run_cell _ _ _) as [[[w2 c2] r2]|]; [|discriminate].
      injection Ew as <- <-. intros k Hk'. apply rd_wr. lia. }
    destruct (rd s1 (2 * i)) as [c1|]; [|discriminate].
    destruct (code c1); [|discriminate].
    destruct (rd (wr s1 (2 * i) (set_code c1 None)) (2 * i + 1)) as [d1|]; [|discriminate].
    set (s2 := wr (wr s1 (2 * i) (set_code c1 None)) (2 * i + 1) (set_code d1 None)) in *.
    assert (H2 : forall k, k <> 2 * i -> k <> 2 * i + 1 -> rd s2 k = rd s k).
    { intros k K1 K2. unfold s2. rewrite !rd_wr by lia. auto. }
    destruct (arr s2) as [l2|] eqn:E2; [|discriminate].
    destruct (forallb _ l2) eqn:Ef.
    - exfalso. rewrite forallb_forall in Ef.
      assert (Rx : rd s2 (2 * j) = Some x) by (rewrite H2; auto; lia).
      unfold rd in Rx. rewrite E2 in Rx. apply nth_error_In in Rx. apply Ef in Rx.
      destruct Hxy as (_ & Hc & _). rewrite Hc in Rx. discriminate.
    - injection Hd as <- <-. split; apply H2; lia.
  Qed.
End Histories.

Lemma progress_before_init {P X W} exec entry (w : W) :
  step exec entry w (@hinit P X) Progress = None.
Proof. reflexivity. Qed.
